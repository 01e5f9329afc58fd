(* Vocabulary for C58: where a batch digest is, and what the rest of the node is asked to do. *)
From Verif Require Import Util PbModel.
Local Open Scope N_scope.

Definition keys (l : list pdig) : list N := map fst l.
Definition carries (h : bhdr) (d : N) : Prop := In d (keys (bh_payload h)).

(* the proposer still has the digest in hand, or a header of this node carrying it was reported as committed *)
Definition accounted (c : bcfg) (s : bst) (d : N) : Prop :=
  In d (keys (b_queue s))
  \/ (exists h b, b_pend s = Some (h, b) /\ bh_epoch h = c_epoch c /\ carries h d)
  \/ (exists r h, In (r, h) (b_tracked s) /\ bh_epoch h = c_epoch c /\ carries h d)
  \/ (exists h, In h (b_done s) /\ carries h d).

(* every event of a run satisfies a condition on the state it meets *)
Fixpoint along_b (ok : bst -> bev -> Prop) (c : bcfg) (s : bst) (evs : list bev) : Prop :=
  match evs with [] => True | e :: t => ok s e /\ along_b ok c (bstep c s e) t end.

(* each acknowledged digest is new: not acknowledged before and not in the header recovered from the store *)
Definition fresh_digest (rec : list N) (s : bst) (e : bev) : Prop :=
  match e with BDigest d _ => ~ In d (keys (b_acked s)) /\ ~ In d rec | _ => True end.
(* a report names headers that are tracked; and no header already reported is being sent *)
Definition calm (c : bcfg) (s : bst) (e : bev) : Prop :=
  match e with BReport _ rs => forall r, In r rs -> exists h, In (r, h) (b_tracked s) | _ => True end
  /\ forall h b, b_pend (bstep c s e) = Some (h, b) -> ~ In h (b_done (bstep c s e)).
(* nobody else raises the published round above the proposer's, and parents have the round they are sent for *)
Definition own_watch (s : bst) (e : bev) : Prop :=
  match e with
  | BPrim v => v <= b_round s
  | BParents cs q => forall x, In x cs -> bc_round x = q
  | _ => True
  end.
Definition rec_keys (st : option bhdr) : list N := match st with Some h => keys (bh_payload h) | None => [] end.
