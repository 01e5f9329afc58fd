(** Messages on the wire (C64): crates/network-libp2p/src/codec.rs 32-105, 112-154, 183-302 and crates/network-libp2p/src/sync/frame.rs
    72-104.

    A message is [4-byte uncompressed length][4-byte compressed length][snappy frames of its BCS bytes].

    Reading.  A peer's bytes arrive in segments: every poll that is ready hands over one segment or what fits the buffer of it.
    Every behaviour of an AsyncRead is such a list of segments, since the sizes asked for are fixed by what has been read.  After
    the last segment the stream is closed, fails, or stays silent; silent means that the call does not return ([Wait]), and the
    state it then holds is the state at that moment of every run that starts with the same segments.

    The crate snap is not in the repository.  Its frame format (snap 1.1, frame::compress_frame, write::FrameEncoder,
    read::FrameDecoder) is modelled chunk by chunk; the compression of one block, [blk_c] and [blk_d], and the checksum [crc]
    are parameters.  So are the BCS functions [enc] and [dec].  Simplified: buffers are their contents, without the
    capacity; the fixed scratch arrays (8 KiB here, one block inside snap) are left out; bytes are numbers. *)
From Verif Require Import Util.
Local Open Scope N_scope.

Definition bytes := list N.
Definition lenN (l : bytes) : N := N.of_nat (length l).

(* ---------- little-endian numbers ---------- *)
Fixpoint le (k : nat) (x : N) : bytes := match k with O => [] | S k' => x mod 256 :: le k' (x / 256) end.
Fixpoint of_le (l : bytes) : N := match l with [] => 0 | b :: t => b + 256 * of_le t end.

(* ---------- the stream ---------- *)
Inductive ending := Closed | Failed | Silent.
Record io := { segs : list bytes; fin : ending }.
Inductive polled := Got (b : bytes) (r : io) | PFail | PWait.
(** [AsyncRead::read] into a buffer of [n] bytes *)
Definition rd (n : nat) (r : io) : polled :=
  match segs r with
  | s :: t => Got (firstn n s) {| segs := match skipn n s with [] => t | s' => s' :: t end; fin := fin r |}
  | [] => match fin r with Closed => Got [] r | Failed => PFail | Silent => PWait end
  end.

Inductive err := EEof | EIo | ETooLarge | ECompressed | EFrame | EMismatch | EBcs.
Inductive pulled := Full (b : bytes) (r : io) | Short (e : option err) (b : bytes) (r : io).
(** [read_exact] (43, 53; [c] is what is missing) and the loop 67-81 ([c] is BODY_READ_CHUNK_SIZE): read at most [c] bytes at a
    time until [n] are there.  No error means that the call waits. *)
Fixpoint pull (fuel : nat) (c n : nat) (acc : bytes) (r : io) : pulled :=
  match n, fuel with
  | O, _ => Full acc r
  | _, O => Short None acc r
  | _, S k =>
    match rd (Nat.min n c) r with
    | Got [] r' => Short (Some EEof) acc r'
    | Got b r' => pull k c (n - length b) (acc ++ b) r'
    | PFail => Short (Some EIo) acc r
    | PWait => Short None acc r
    end
  end.
(** every read takes a byte or ends the loop *)
Definition fuel_of (r : io) : nat := S (length (concat (segs r))).
Definition BODY_READ_CHUNK_SIZE : N := 8192.                                  (* 21 *)
Definition read_exact (n : nat) (r : io) : pulled := pull (fuel_of r) n n [] r.
Definition read_body (n : nat) (r : io) : pulled := pull (fuel_of r) (N.to_nat BODY_READ_CHUNK_SIZE) n [] r.

(* ---------- snappy frames ---------- *)
Definition U32 : N := 4294967296.
Definition BLOCK : N := 65536.
(** snap::raw::max_compress_len *)
Definition max_compress_len (n : N) : N :=
  if U32 - 1 <? n then 0 else let m := 32 + n + n / 6 in if U32 - 1 <? m then 0 else m.
Definition CHUNK_MAX : N := 76490.                                            (* max_compress_len of a block *)
Definition magic : bytes := [115; 78; 97; 80; 112; 89].
Definition ident : bytes := 255 :: le 3 6 ++ magic.

Section Codec.
Variable M : Type.
Variable enc : M -> option bytes.
Variable dec : bytes -> option M.
Variable blk_c : bytes -> bytes.
Variable blk_d : bytes -> option bytes.
Variable crc : bytes -> N.

(** frame::compress_frame: a block that does not shrink by an eighth is stored as it is *)
Definition chunk (src : bytes) : bytes :=
  let z := blk_c src in
  if lenN src - lenN src / 8 <=? lenN z
  then 1 :: le 3 (4 + lenN src) ++ le 4 (crc src) ++ src
  else 0 :: le 3 (4 + lenN z) ++ le 4 (crc src) ++ z.
Fixpoint deflate_go (fuel : nat) (b : bytes) : bytes :=
  match b, fuel with
  | [], _ => []
  | _, O => []
  | _, S k => chunk (firstn (N.to_nat BLOCK) b) ++ deflate_go k (skipn (N.to_nat BLOCK) b)
  end.
(** write::FrameEncoder, [write_all] and [flush] (138-141): nothing at all is written for no bytes *)
Definition deflate (b : bytes) : bytes := match b with [] => [] | _ => ident ++ deflate_go (length b) b end.

(** one chunk after its four byte header; [None] is an error *)
Definition read_chunk (ty len : N) (rest : bytes) : option (bytes * bytes) :=
  if CHUNK_MAX <? len then None
  else if lenN rest <? len then None
  else
    let body := firstn (N.to_nat len) rest in
    let rest' := skipn (N.to_nat len) rest in
    if ty =? 255 then if (len =? 6) && (if list_eq_dec N.eq_dec body magic then true else false) then Some ([], rest') else None
    else if 128 <=? ty then Some ([], rest')
    else if 2 <=? ty then None
    else if len <? 4 then None
    else
      let sum := of_le (firstn 4 body) in
      match (if ty =? 1 then Some (skipn 4 body) else blk_d (skipn 4 body)) with
      | Some d => if (lenN d <=? BLOCK) && (crc d =? sum) then Some (d, rest') else None
      | None => None
      end.
(** [FrameDecoder::new(reader).take(limit).read_to_end] (86-89); the result says if there was no error, and what was appended *)
Fixpoint inflate_go (fuel : nat) (limit : N) (started : bool) (src acc : bytes) : bool * bytes :=
  if limit <=? lenN acc then (true, firstn (N.to_nat limit) acc)
  else
    match fuel with
    | O => (false, acc)
    | S k =>
      match src with
      | [] => (true, acc)
      | ty :: a :: b :: c :: rest =>
        if negb started && negb (ty =? 255) then (false, acc)
        else match read_chunk ty (of_le [a; b; c]) rest with
             | Some (d, rest') => inflate_go k limit true rest' (acc ++ d)
             | None => (false, acc)
             end
      | _ => (false, acc)
      end
    end.
Definition inflate (limit : N) (src : bytes) : bool * bytes := inflate_go (S (length src)) limit false src [].

(* ---------- messages ---------- *)
Inductive dout := Msg (m : M) | Err (e : err) | Wait.
(** the outcome, the two reused buffers and what is left of the stream *)
Record dres := { d_out : dout; d_dec : bytes; d_comp : bytes; d_io : io }.
Definition short (e : option err) : dout := match e with Some e => Err e | None => Wait end.

(** 32-105; [db] and [cb] are the buffers as the last call left them *)
Definition decode_message (r : io) (db cb : bytes) (max : N) : dres :=
  let db := [] in
  let cb := [] in
  match read_exact 4 r with
  | Short e _ r' => {| d_out := short e; d_dec := db; d_comp := cb; d_io := r' |}
  | Full p r1 =>
    let u := of_le p in
    if max <? u then {| d_out := Err ETooLarge; d_dec := db; d_comp := cb; d_io := r1 |}
    else
      match read_exact 4 r1 with
      | Short e _ r' => {| d_out := short e; d_dec := db; d_comp := cb; d_io := r' |}
      | Full q r2 =>
        let c := of_le q in
        if max_compress_len u <? c then {| d_out := Err ECompressed; d_dec := db; d_comp := cb; d_io := r2 |}
        else
          match read_body (N.to_nat c) r2 with
          | Short e b r' => {| d_out := short e; d_dec := db; d_comp := cb ++ b; d_io := r' |}
          | Full b r3 =>
            let cb := cb ++ b in
            let '(ok, p) := inflate u cb in
            let db := db ++ p in
            {| d_out := if negb ok then Err EFrame
                        else if negb (lenN db =? u) then Err EMismatch
                        else match dec db with Some m => Msg m | None => Err EBcs end;
               d_dec := db; d_comp := cb; d_io := r3 |}
          end
      end
  end.

(** 112-154: what is written, if the message is accepted, and the buffers *)
Definition encode_message (m : M) (eb cb : bytes) (max : N) : option bytes * bytes * bytes :=
  let eb := [] in
  let cb := [] in
  match enc m with
  | None => (None, eb, cb)
  | Some b =>
    let eb := eb ++ b in
    if max <? lenN eb then (None, eb, cb)
    else
      let cb := cb ++ deflate eb in
      (Some (le 4 (lenN eb mod U32) ++ le 4 (lenN cb mod U32) ++ cb), eb, cb)
  end.

(** 186-198 a codec: its two buffers and its limit; 231-302 the four operations share them *)
Record codec := { k_buf : bytes; k_comp : bytes; k_max : N }.
Definition codec_read (k : codec) (r : io) : dout * codec * io :=
  let x := decode_message r (k_buf k) (k_comp k) (k_max k) in
  (d_out x, {| k_buf := d_dec x; k_comp := d_comp x; k_max := k_max k |}, d_io x).
Definition codec_write (k : codec) (m : M) : option bytes * codec :=
  let '(w, b, c) := encode_message m (k_buf k) (k_comp k) (k_max k) in (w, {| k_buf := b; k_comp := c; k_max := k_max k |}).
(** frame.rs 72-104 and every loop over the frames of a stream: the frames one after the other, up to the first that is refused *)
Fixpoint write_all (k : codec) (ms : list M) : bytes * codec * bool :=
  match ms with
  | [] => ([], k, true)
  | m :: t => match codec_write k m with
              | (Some w, k') => let '(ws, k'', ok) := write_all k' t in (w ++ ws, k'', ok)
              | (None, k') => ([], k', false)
              end
  end.
Fixpoint read_n (n : nat) (k : codec) (r : io) : list M * dout * codec * io :=
  match n with
  | O => ([], Wait, k, r)
  | S n' => match codec_read k r with
            | (Msg m, k', r') => let '(ms, o, k'', r'') := read_n n' k' r' in (m :: ms, o, k'', r'')
            | (o, k', r') => ([], o, k', r')
            end
  end.
End Codec.
Arguments Msg {M}. Arguments Err {M}. Arguments Wait {M}.
Arguments d_out {M}. Arguments d_dec {M}. Arguments d_comp {M}. Arguments d_io {M}.
