(* Vocabulary for C29 and C31. *)
From Verif Require Import Util Types LdbModel PropModel.
Local Open Scope N_scope.

(* What C29 asks of the rest of the node: the guard record can be read when the proposer starts, and the proposer is
   not handed parents that move it to a round more than one below the header it last recorded in this epoch. *)
Definition quiet_start (n : pnode) (e : pev) : Prop :=
  match e with
  | PCrash _ ok | PRestart _ ok | PNextEpoch _ _ _ _ ok => ok = true
  | PParents q => forall m, last_proposed (p_db n) = Some m -> h_epoch m = p_epoch n ->
                  q <= p_round n \/ h_round m <= q + 1
  | _ => True
  end.
Fixpoint along (ok : pnode -> pev -> Prop) (n : pnode) (evs : list pev) : Prop :=
  match evs with [] => True | e :: t => ok n e /\ along ok (pstep n e) t end.

(* a stored certificate is only published again once its record is on disk *)
Definition prompt (n : pnode) (e : pev) : Prop :=
  match e with
  | CLock i => forall h c, nth_error (p_certs n) i = Some (CWant h) -> stored_cert (p_db n) (h_digest h) = Some c ->
               l_disk (p_db n) (KC (h_digest h)) = Some (VC c)
  | _ => True
  end.

(* the hash separates the node's own headers *)
Definition coll_free (s : list header) : Prop := forall a b, In a s -> In b s -> h_digest a = h_digest b -> a = b.
