(** Exchanges over a sync stream (C65): crates/network-libp2p/src/sync/frame.rs 28-104, sync/request.rs 14-85,
    crates/consensus/primary/src/network/sync_codec.rs 31-45, 109-305, 325-360 (an epoch pack, a part of one, a single output),
    the first frame of the answer, crates/consensus/primary/src/network/mod.rs 1020-1105 and 676-750, and the closing error frame,
    handler.rs 1263-1288.

    The frames are BCS encoded (WireModel) and travel as messages (CodecModel).  The source of a transfer is a reader that hands
    over its bytes in pieces; a piece is at most one chunk long and never empty (tokio_util ReaderStream), and it may fail.
    Simplified: a timeout of the reader is the state [Wait]; a writer that is cut off anywhere, by a timeout, a reset or a crash,
    has put a beginning of its bytes on the stream. *)
From Verif Require Import Util WireModel CodecModel.
Local Open Scope N_scope.

(* sync/request.rs 14-28, 37-85 *)
Inductive wreq := Batches (digests : list bytes) (epoch : N).
Inductive preq := EpochPack (epoch : N) | MissingCertificates (lower : N) (skip : list (bytes * bytes))
                | EpochPackPartial (epoch last : N) | ConsensusOutput (number : N).
(* frame.rs 28-61 *)
Inductive deny := AtCapacity | Unavailable.
Inductive sferr := Internal | Malformed.
Inductive sframe (R : Type) := Req (r : R) | Ack | Deny (d : deny) | Data (b : bytes) | End | ErrF (e : sferr).
Arguments Req {R}. Arguments Ack {R}. Arguments Deny {R}. Arguments Data {R}. Arguments End {R}. Arguments ErrF {R}.

(* ---------- BCS ---------- *)
Definition tag (n : N) (t : bytes) : bytes := uleb n ++ t.
Definition put_wreq (r : wreq) : bytes :=
  match r with Batches ds e => tag 0 (put_seq put_fixed ds ++ WireModel.le 4 e) end.
Definition get_wreq : parser wreq :=
  t <- get_uleb ;; if t =? 0 then ds <- get_seq (get_fixed 32) ;; e <- get_int 4 ;; ret (Batches (bset_of ds) e) else failp.
Definition put_preq (r : preq) : bytes :=
  match r with
  | EpochPack e => tag 0 (WireModel.le 4 e)
  | MissingCertificates lo sk => tag 1 (WireModel.le 4 lo ++ put_seq (fun p => fst p ++ put_fixed (snd p)) sk)
  | EpochPackPartial e n => tag 2 (WireModel.le 4 e ++ WireModel.le 8 n)
  | ConsensusOutput n => tag 3 (WireModel.le 8 n)
  end.
Definition get_preq : parser preq :=
  t <- get_uleb ;;
  if t =? 0 then e <- get_int 4 ;; ret (EpochPack e)
  else if t =? 1 then lo <- get_int 4 ;; sk <- get_seq (a <- take 32 ;; b <- get_vec ;; ret (a, b)) ;; ret (MissingCertificates lo sk)
  else if t =? 2 then e <- get_int 4 ;; n <- get_int 8 ;; ret (EpochPackPartial e n)
  else if t =? 3 then n <- get_int 8 ;; ret (ConsensusOutput n)
  else failp.

Section Frames.
Variable R : Type.
Variable put_req : R -> bytes.
Variable get_req : parser R.
(** what the Rust types and BCS's own limit on lengths demand of a request *)
Variable req_ok : R -> bool.
Definition put_frame (f : sframe R) : bytes :=
  match f with
  | Req r => tag 0 (put_req r)
  | Ack => tag 1 []
  | Deny d => tag 2 (tag (match d with AtCapacity => 0 | Unavailable => 1 end) [])
  | Data b => tag 3 (put_fixed b)
  | End => tag 4 []
  | ErrF e => tag 5 (tag (match e with Internal => 0 | Malformed => 1 end) [])
  end.
Definition get_frame : parser (sframe R) :=
  t <- get_uleb ;;
  if t =? 0 then r <- get_req ;; ret (Req r)
  else if t =? 1 then ret Ack
  else if t =? 2 then d <- get_uleb ;; if d =? 0 then ret (Deny AtCapacity) else if d =? 1 then ret (Deny Unavailable) else failp
  else if t =? 3 then b <- get_vec ;; ret (Data b)
  else if t =? 4 then ret End
  else if t =? 5 then e <- get_uleb ;; if e =? 0 then ret (ErrF Internal) else if e =? 1 then ret (ErrF Malformed) else failp
  else failp.
Definition enc_frame (f : sframe R) : option bytes :=
  match f with
  | Req r => if req_ok r then Some (put_frame f) else None
  | Data b => if lenN b <? 2147483648 then Some (put_frame f) else None
  | _ => Some (put_frame f)
  end.
Definition dec_frame (b : bytes) : option (sframe R) := from_bytes get_frame b.
End Frames.

Definition u32b (n : N) : bool := n <? 4294967296.
Definition u64b (n : N) : bool := n <? 18446744073709551616.
Definition fitsb {A} (l : list A) : bool := N.of_nat (length l) <? 2147483648.
Fixpoint orderedb (l : list bytes) : bool :=
  match l with [] => true | a :: t => forallb (blt a) t && orderedb t end.
(** a set of 32 byte digests, an epoch *)
Definition wreq_ok (r : wreq) : bool :=
  match r with Batches ds e => fitsb ds && forallb (fun d => Nat.eqb (length d) 32) ds && orderedb ds && u32b e end.
Definition preq_ok (r : preq) : bool :=
  match r with
  | EpochPack e => u32b e
  | MissingCertificates lo sk => u32b lo && fitsb sk && forallb (fun p => Nat.eqb (length (fst p)) 32 && fitsb (snd p)) sk
  | EpochPackPartial e n => u32b e && u64b n
  | ConsensusOutput n => u64b n
  end.

(* ---------- the exchange ---------- *)
Definition SYNC_PACK_CHUNK_SIZE : N := 262144.                                    (* 34 *)
Definition MAX_SYNC_PACK_FRAME_SIZE : N := SYNC_PACK_CHUNK_SIZE + 1024.           (* 38-44 *)

Section Exchange.
Variable blk_c : bytes -> bytes.
Variable blk_d : bytes -> option bytes.
Variable crc : bytes -> N.
Definition pframe := sframe preq.
Definition penc : pframe -> option bytes := enc_frame preq put_preq preq_ok.
Definition pdec : bytes -> option pframe := dec_frame preq get_preq.
Definition new_codec : codec := {| k_buf := []; k_comp := []; k_max := MAX_SYNC_PACK_FRAME_SIZE |}.
Definition send_frames (fs : list pframe) : bytes := fst (fst (write_all pframe penc blk_c crc new_codec fs)).

(** the source: its pieces, and whether it ends or fails after them *)
Record source := { s_pieces : list bytes; s_ok : bool }.
(** 130-160, 163-210: nothing to serve is a Deny; otherwise Ack, a Data frame for each piece, End.  handler.rs 1263-1288: a
    failing source is reported with an Err frame.  The single output (325-360) is the same with its bytes as the source. *)
Definition serve_frames (src : option source) : list pframe :=
  match src with
  | None => [Deny Unavailable]
  | Some s => Ack :: map Data (s_pieces s) ++ [if s_ok s then End else ErrF Internal]
  end.
Definition serve (src : option source) : bytes := send_frames (serve_frames src).

(** 241-304 [sync_pack_reader]: the bytes it hands to the importer, and how it ends *)
Inductive fin_read := Complete | Broken | Stalled.
Fixpoint pack_reader (fuel : nat) (k : codec) (r : io) : bytes * fin_read :=
  match fuel with
  | O => ([], Broken)
  | S n =>
    match codec_read pframe pdec blk_d crc k r with
    | (Msg (Data b), k', r') => let '(t, f) := pack_reader n k' r' in (b ++ t, f)
    | (Msg End, _, _) => ([], Complete)
    | (Msg _, _, _) => ([], Broken)
    | (Err _, _, _) => ([], Broken)
    | (Wait, _, _) => ([], Stalled)
    end
  end.
Inductive answer := Accepted (b : bytes) (f : fin_read) | Denied | Refused | Waiting.
(** mod.rs 1031-1105: the first frame of the answer, then the reader with new buffers; every frame takes at least a byte *)
Definition fetch (r : io) : answer :=
  match codec_read pframe pdec blk_d crc new_codec r with
  | (Msg Ack, _, r') => let '(b, f) := pack_reader (S (length (concat (segs r')))) new_codec r' in Accepted b f
  | (Msg (Deny _), _, _) => Denied
  | (Msg _, _, _) => Refused
  | (Err _, _, _) => Refused
  | (Wait, _, _) => Waiting
  end.
End Exchange.
