(** Model of the whole network of validators, composed of the component models: the vote service (VoteModel), the proposer and
    certifier (PropModel), the reception of single certificates and of fetched batches (SyncModel, cert_validator.rs) and the
    certifier's vote aggregator (CertModel). One event is one step of one component of one honest validator; faulty
    validators have no events: whatever they send appears as the arbitrary contents of the events of the honest ones.
    Validators are named by their BLS key. *)
From Verif Require Import Util Types CommitteeModel CertModel LdbModel VoteModel PropModel SyncModel.
Local Open Scope N_scope.

(** The fixed parameters of an execution. *)
Record network := mkNet {
  nt_cm : N -> committee;                       (* the committee of each epoch *)
  nt_faulty : list N;                           (* keys of the faulty validators *)
  nt_id : N -> N;                               (* authority identifier of a key: committee.rs 159-164 *)
  nt_com0 : N -> committee;                     (* per validator: committee at start, the two databases at start *)
  nt_vdisk : N -> key -> option vinfo;
  nt_epoch0 : N -> N; nt_prim0 : N -> N;
  nt_pdisk : N -> key -> option pval;
  nt_genesis : committee -> list cert;          (* certificate.rs 47-59 *)
  nt_interval : N;                              (* certificate_verification_round_interval *)
  nt_averify : N -> N -> list N -> bool;        (* aggregate BLS verification *)
  nt_verify : N -> N -> N -> bool;              (* BLS verification of one vote *)
  nt_aggregate : list N -> option N;
  nt_dsig : N
}.

Inductive gev :=
| GVote (k : N) (e : vev)                            (* vote service *)
| GProp (k : N) (e : pev)                            (* proposer and certifier *)
| GCert (k gc : N) (x : cert)                        (* handler.rs: one certificate received (gossip, or sent as a parent) *)
| GFetch (k gc : N) (l : list cert)                  (* certificate_fetcher.rs 498-522: the answer to a fetch request *)
| GOwn (k : N) (h : header) (vs : list vote) (v : vote).   (* certifier.rs 256-390: votes vs (its own first), then v, for header h *)

Section Net.
Variable T : network.

Definition vhist (k : N) (tr : list gev) : list vev :=
  flat_map (fun g => match g with GVote j e => if j =? k then [e] else [] | _ => [] end) tr.
Definition phist (k : N) (tr : list gev) : list pev :=
  flat_map (fun g => match g with GProp j e => if j =? k then [e] else [] | _ => [] end) tr.
Definition voter (k : N) (tr : list gev) : vnode := vrun (vinit (nt_com0 T k) (nt_vdisk T k)) (vhist k tr).
Definition proposer (k : N) (tr : list gev) : pnode :=
  prun (pinit (nt_id T k) (nt_epoch0 T k) (nt_prim0 T k) (nt_pdisk T k)) (phist k tr).
Definition com_at (k : N) (tr : list gev) : committee := n_com (voter k tr).

(** What validator k has put its signature on: votes it returned, and its own headers (certifier.rs 277-280: the author's own
    vote is made when the certifier handles the header). *)
Definition signed_hdr (k : N) (tr : list gev) (h : header) : Prop :=
  In h (n_out (voter k tr)) \/ In h (p_sent (proposer k tr)).

(** The verified certificates that an event hands to the certificate manager of validator k (cert_validator.rs 63-131,
    235-270; cert_manager.rs 88-92 refuses the unverified ones; certifier.rs 488-510 for the node's own). *)
Definition gain (k : N) (tr : list gev) (g : gev) : list cert :=
  let com := com_at k tr in
  match g with
  | GCert j gc x =>
      if j =? k then
        match validate_received x with
        | Ok y => match check_direct (nt_averify T) (nt_genesis T com) com gc y with
                  | Ok z => filter is_verified [z] | Err _ => [] end
        | Err _ => []
        end
      else []
  | GFetch j gc l =>
      if j =? k then
        match process_fetched (nt_averify T) (nt_genesis T com) com (nt_interval T) gc l with
        | Ok out => filter is_verified out | Err _ => [] end
      else []
  | GOwn j h vs v =>
      if (j =? k) && (h_epoch h =? cm_epoch com) then       (* certifier.rs 261-273 *)
        match snd (votes_append (nt_aggregate T) (nt_verify T) (nt_dsig T) com h
                     (fst (votes_run (nt_aggregate T) (nt_verify T) (nt_dsig T) com h votes_agg_new vs)) v) with
        | Ok (Some z) => [z] | _ => [] end
      else []
  | _ => []
  end.
(** Validator k accepted certificate c at some moment of tr. *)
Definition accepted (k : N) (tr : list gev) (c : cert) : Prop :=
  exists pre g post, tr = pre ++ g :: post /\ In c (gain k pre g).
End Net.
