(* Words used to state C32 and C38. *)
From Verif Require Import Util EpochModel.

(* signed k d: the holder of key k signed the epoch-boundary digest d *)
Definition signing := N -> N -> Prop.

(* digests do not collide; an aggregate that verifies was signed by every listed key *)
Record eenv_sound (E : eenv) (signed : signing) : Prop := {
  es_dig : forall r r', ee_dig E r = ee_dig E r' -> r = r';
  es_agg : forall d ks a, ee_ver E d ks a = true -> forall k, In k ks -> signed k d }.

(* an aggregate of valid single signatures verifies under exactly their keys, in any order *)
Definition agg_complete (E : eenv) (sigok : N -> N -> N -> Prop) : Prop :=
  forall d (l : list (N * N)), l <> [] -> (forall k s, In (k, s) l -> sigok d k s) ->
    exists a, ee_agg E (map snd l) = Some a /\ forall ks, Permutation ks (map fst l) -> ee_ver E d ks a = true.

(* more than two thirds of the record's committee, each counted once, signed exactly the record *)
Definition super_signed (E : eenv) (signed : signing) (r : erec) : Prop :=
  exists ks, NoDup ks /\ incl ks (er_com r) /\ 2 * length (er_com r) < 3 * length ks /\ forall k, In k ks -> signed k (ee_dig E r).

(* the true chain: one record per epoch, chained by parent and by committee, honest members sign nothing else *)
Record true_chain (E : eenv) (signed : signing) (faulty genesis : list N) (truth : nat -> erec) : Prop := {
  tc_epoch : forall e, er_epoch (truth e) = e;
  tc_honest : forall k r, ~ In k faulty -> signed k (ee_dig E r) -> r = truth (er_epoch r);
  tc_gen : NoDup genesis /\ 3 * length (interN genesis faulty) < length genesis;
  tc_next : forall e, NoDup (er_next (truth e)) /\ 3 * length (interN (er_next (truth e)) faulty) < length (er_next (truth e)) }.
