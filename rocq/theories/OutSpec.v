(** What an output must contain, stated without reference to how it is assembled. *)
From Verif Require Import Util OutModel.
Local Open Scope N_scope.

(** All batch digests the sub-dag's headers name, header by header. *)
Definition named (s : subdag) : list N := concat (map oh_payload (sd_hdrs s)).

(** [o] is the output of sub-dag [s] at place ([parent], [num]) of the chain: it names the sub-dag's
    digests in order, and, unless the sub-dag names no batch at all, has for every header, in order,
    the author's address and exactly the batches its payload names, in order. *)
Definition output_for (bd : N -> N) (addr : N -> option N) (s : subdag) (parent num : N) (o : output) : Prop :=
  out_sub o = s /\ out_parent o = parent /\ out_num o = num /\
  out_digests o = named s /\
  (named s = [] -> out_batches o = []) /\
  (named s <> [] ->
   Forall2 (fun h cb => addr (oh_author h) = Some (cb_addr cb) /\ map bd (cb_batches cb) = oh_payload h)
           (sd_hdrs s) (out_batches o)).

(** A digest names one batch within the output. *)
Definition one_batch_per_digest (bd : N -> N) (o : output) : Prop :=
  forall a b, In a (flat_map cb_batches (out_batches o)) -> In b (flat_map cb_batches (out_batches o)) ->
    bd a = bd b -> a = b.
