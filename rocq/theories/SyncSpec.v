(** Specification vocabulary for C21, C22 and C30. *)
From Verif Require Import Util Types CommitteeModel CertModel SyncModel.
Local Open Scope N_scope.

(** What voters checked before a certificate could exist (header_validator.rs, C17): equal digests mean the same header, and a
    parent is one round below its child. *)
Definition consistent (l : list cert) : Prop :=
  forall x y, In x l -> In y l ->
    (c_digest x = c_digest y -> c_header x = c_header y) /\
    (In (c_digest x) (c_parents y) -> c_round y = c_round x + 1).

(** The certificates handed to the manager by an event, oldest first. *)
Definition arrivals (evs : list sev) : list cert :=
  flat_map (fun e => match e with SCerts l => map snd l | SGc _ _ => [] end) evs.

(** A hash set's walk visits each element once. *)
Definition fair_order (o : order) : Prop := forall n l, Permutation (o n l) l.
(** No storage write of the event fails, and hash sets are walked faithfully. *)
Definition sound_event (e : sev) : Prop :=
  match e with
  | SCerts l => Forall (fun x => e_ok (fst x) = true /\ fair_order (e_ord (fst x))) l
  | SGc _ envs => Forall (fun x => fst x = true /\ fair_order (snd x)) envs
  end.

(** The certificate's own aggregate signature was checked: it belongs to the committee's epoch, its header is valid, a quorum of
    the committee is marked as signer and the aggregate signature verifies for the keys of exactly these members. *)
Definition signature_checked (averify : N -> N -> list N -> bool) (com : committee) (gc : N) (y : cert) : Prop :=
  gc <= c_round y /\ c_epoch y = cm_epoch com /\ header_validate (c_header y) com = Ok tt /\
  cm_quorum com <= fst (signed_by y (bls_keys com)) /\
  exists sig, c_state y = VerifiedDirectly sig /\ averify (c_digest y) sig (snd (signed_by y (bls_keys com))) = true.

(** [y] has its own signature checked, or is an ancestor, along parent digests inside the batch, of one that has. *)
Inductive backed (checked : cert -> Prop) (batch : list cert) : cert -> Prop :=
| BDirect y : In y batch -> checked y -> backed checked batch y
| BParent y z : In y batch -> backed checked batch z -> In (c_digest y) (c_parents z) -> backed checked batch y.

(** Digests are hashes of headers that contain the parents' digests: they cannot form cycles. *)
Definition acyclic (l : list cert) : Prop :=
  exists rank : N -> nat, forall x y, In x l -> In y l -> In (c_digest x) (c_parents y) -> (rank (c_digest x) < rank (c_digest y))%nat.
