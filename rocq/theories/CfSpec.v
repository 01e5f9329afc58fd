(** What C59's theorems mean: which certificates a history of store transactions leaves behind, and what a peer asked for. *)
From Verif Require Import Util CfModel.
Local Open Scope N_scope.

(** the transactions of the certificate store, in the order they were committed. [cs_write] is OSave then OGc; a crash
    between the two is a history that stops there *)
Inductive cs_op := OSave (c : fcert) | OGc (round : N) | ODelete (d : N) | OClear.
Definition run_op (s : cstore) (o : cs_op) : cstore :=
  match o with
  | OSave c => save_cert c s
  | OGc r => gc_rounds r s
  | ODelete d => cs_delete d s
  | OClear => cs_clear s
  end.
Definition run_ops (ops : list cs_op) : cstore := fold_left run_op ops cs_empty.

(** a certificate survives an operation: it is not overwritten, not collected, not deleted *)
Definition keeps (c : fcert) (o : cs_op) : Prop :=
  match o with
  | OSave c' => f_dig c' <> f_dig c
  | OGc r => r <= 64 \/ r - 64 <= f_round c
  | ODelete d => d <> f_dig c
  | OClear => False
  end.
Definition stored (ops : list cs_op) (c : fcert) : Prop :=
  exists before after, ops = before ++ OSave c :: after /\ Forall (keeps c) after.

(** one certificate per author and round (C07), and digests do not collide *)
Definition one_per_slot (ops : list cs_op) : Prop :=
  forall c c', In (OSave c) ops -> In (OSave c') ops ->
    (f_dig c = f_dig c' <-> f_origin c = f_origin c' /\ f_round c = f_round c').
(** rounds fit in a u32 and the largest value is never used *)
Definition rounds_fit (ops : list cs_op) : Prop := forall c, In (OSave c) ops -> f_round c < U32MAX.

(** round first, then author *)
Definition slot_lt (c c' : fcert) : Prop :=
  f_round c < f_round c' \/ (f_round c = f_round c' /\ f_origin c < f_origin c').

(** the certificates a request asks for, out of those held: author named, round above the bound and not listed *)
Definition wanted (held : fcert -> Prop) (bound : N) (skip : N -> option (list N)) (c : fcert) : Prop :=
  held c /\ bound < f_round c /\ exists l, skip (f_origin c) = Some l /\ ~ In (f_round c) l.

(** the header of a serialised roaring bitmap, from its format: either the four bytes of 12346 and the number of containers
    as four bytes, or the two bytes of 12347 and the number of containers minus one as two bytes; low byte first *)
Definition header_says (b : list N) (n : N) : Prop :=
  (n <= U32MAX /\ exists rest, b = [58; 48; 0; 0; n mod 256; n / 256 mod 256; n / 65536 mod 256; n / 16777216] ++ rest) \/
  (1 <= n <= 65536 /\ exists rest, b = [59; 48; (n - 1) mod 256; (n - 1) / 256] ++ rest).
Definition bytes (b : list N) : Prop := Forall (fun x => x < 256) b.
(** what is assumed of the roaring crate: a set of u32 values comes back as it was, and the header's container count is
    the number of distinct high halves, never more than the number of values *)
Definition u32_set (l : list N) : Prop := StronglySorted N.lt l /\ Forall (fun x => x <= U32MAX) l.
Definition roaring_ok (ser : list N -> list N) (deser : list N -> option (list N)) : Prop :=
  forall l, u32_set l ->
    deser (ser l) = Some l /\ exists n, header_says (ser l) n /\ n <= N.of_nat (length l).
