(* Words used to state C27. *)
From Verif Require Import Util GossipModel.

(* digests do not collide, committees are sets *)
Record genv_ok (E : genv) : Prop := {
  go_dig : forall e r n h e' r' n' h', ge_dig E e r n h = ge_dig E e' r' n' h' -> e = e' /\ r = r' /\ n = n' /\ h = h';
  go_com : forall e, NoDup (ge_com E e) }.

Definition arrived (evs : list gev) (m : gmsg) : Prop := In (GArrive m) evs.

(* k, a member of the epoch's committee, signed exactly the result (epoch, round, number, hash) of m, and its message arrived *)
Definition signed_result (E : genv) (evs : list gev) (m : gmsg) (k : N) : Prop :=
  In k (ge_com E (gm_epoch m)) /\
  exists sig, ge_vrfy E (ge_dig E (gm_epoch m) (gm_round m) (gm_number m) (gm_hash m)) k sig = true /\
              arrived evs (mk_gmsg (gm_epoch m) (gm_round m) (gm_number m) (gm_hash m) k sig).

(* Members outside B sign at most one result per consensus number; the numbers met are those of NS. *)
Definition honest_discipline (E : genv) (B NS : list N) (res : N -> N) (evs : list gev) : Prop :=
  forall m, arrived evs m -> ge_vrfy E (gm_dig E m) (gm_key m) (gm_sig m) = true ->
    In (gm_number m) NS /\ (In (gm_key m) B \/ gm_dig E m = res (gm_number m)).
