(** What a message on the wire is (C64), in the words of the format. *)
From Verif Require Import Util CodecModel.
Local Open Scope N_scope.

Definition is_byte (b : N) : Prop := b < 256.
(** what arrives, whatever the segments *)
Definition arrived (r : io) : bytes := concat (segs r).
(** a read that is ready with no bytes means the end of the stream, so no segment is empty *)
Definition honest_io (r : io) : Prop := Forall (fun s => s <> []) (segs r).

Section S.
Variable M : Type.
Variable enc : M -> option bytes.
Variable dec : bytes -> option M.
Variable blk_d : bytes -> option bytes.
Variable crc : bytes -> N.

(** a chunk and the data it stands for *)
Inductive Chunk : bytes -> bytes -> Prop :=
| ch_ident : Chunk ([255; 6; 0; 0] ++ magic) []
| ch_plain d : lenN d <= 65536 -> Chunk ([1] ++ le 3 (4 + lenN d) ++ le 4 (crc d) ++ d) d
| ch_comp z d : blk_d z = Some d -> lenN d <= 65536 -> 4 + lenN z <= 76490 ->
    Chunk ([0] ++ le 3 (4 + lenN z) ++ le 4 (crc d) ++ z) d
| ch_skip ty p : 128 <= ty < 255 -> lenN p <= 76490 -> Chunk ([ty] ++ le 3 (lenN p) ++ p) [].
Inductive Chunks : bytes -> bytes -> Prop :=
| cs_nil : Chunks [] []
| cs_cons w d ws ds : Chunk w d -> Chunks ws ds -> Chunks (w ++ ws) (d ++ ds).
(** the first [u] bytes of data of a compressed body, read up to there and no further *)
Definition Payload (u : N) (body p : bytes) : Prop :=
  (u = 0 /\ p = []) \/
  exists w rest d, body = [255; 6; 0; 0] ++ magic ++ w ++ rest /\ Chunks w d /\ u <= lenN d /\ p = firstn (N.to_nat u) d.

(** the longest body a block of [u] bytes is granted; none at all if that is not a 32 bit number *)
Definition body_limit (u : N) : N := if 32 + u + u / 6 <? 2 ^ 32 then 32 + u + u / 6 else 0.
(** the bytes of one message for a reader with the limit [max] *)
Definition OnWire (max : N) (w : bytes) (m : M) : Prop :=
  exists u body p, w = le 4 u ++ le 4 (lenN body) ++ body /\ u < 2 ^ 32 /\ lenN body < 2 ^ 32 /\
    u <= max /\ lenN body <= body_limit u /\ Payload u body p /\ dec p = Some m.

(** a message a writer with the limit [max] sends *)
Definition sendable (max : N) (m : M) : Prop := exists b, enc m = Some b /\ lenN b <= max.
(** limits for which all lengths are 32 bit numbers; the largest is 3681400511 *)
Definition limit_ok (max : N) : Prop := 32 + max + max / 6 < 2 ^ 32.
End S.
