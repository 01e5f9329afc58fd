(** What a transfer is (C65). *)
From Verif Require Import Util WireModel CodecModel CodecSpec SfrModel.
Local Open Scope N_scope.

Section S.
Variable blk_d : bytes -> option bytes.
Variable crc : bytes -> N.
Notation Frame := (OnWire pframe pdec blk_d crc 263168).
(** Data frames up to an End frame; [d] is what they carry, one after the other *)
Inductive Transfer : bytes -> bytes -> Prop :=
| tr_end w rest : Frame w End -> Transfer (w ++ rest) []
| tr_data w b ws ds : Frame w (Data b) -> Transfer ws ds -> Transfer (w ++ ws) (b ++ ds).
(** an accepted and finished transfer of [d] *)
Definition Finished (bs d : bytes) : Prop := exists w ws, bs = w ++ ws /\ Frame w Ack /\ Transfer ws d.
End S.

(** a piece is what one read of the source returns into a buffer of one chunk *)
Definition pieces_ok (s : source) : Prop := Forall (fun p => lenN p <= 262144) (s_pieces s).
Definition content (s : source) : bytes := concat (s_pieces s).
(** how an unfinished transfer looks to the receiver *)
Definition unfinished (f : ending) : fin_read := match f with Silent => Stalled | _ => Broken end.

(** requests as the Rust types have them *)
Definition digest_set (ds : list bytes) : Prop :=
  N.of_nat (length ds) < 2 ^ 31 /\ Forall (fun d => length d = 32%nat) ds /\ StronglySorted (fun a b => blt a b = true) ds.
Definition worker_request (r : wreq) : Prop := match r with Batches ds e => digest_set ds /\ e < 2 ^ 32 end.
Definition primary_request (r : preq) : Prop :=
  match r with
  | EpochPack e => e < 2 ^ 32
  | MissingCertificates lo sk => lo < 2 ^ 32 /\ N.of_nat (length sk) < 2 ^ 31 /\
      Forall (fun p => length (fst p) = 32%nat /\ N.of_nat (length (snd p)) < 2 ^ 31) sk
  | EpochPackPartial e n => e < 2 ^ 32 /\ n < 2 ^ 64
  | ConsensusOutput n => n < 2 ^ 64
  end.
(** a frame of well-formed parts *)
Definition wellformed {R} (req : R -> Prop) (f : sframe R) : Prop :=
  match f with Req r => req r | Data b => lenN b < 2 ^ 31 | _ => True end.
