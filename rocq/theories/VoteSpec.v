(* Specification vocabulary for the vote properties, independent of how the handler computes them. *)
From Verif Require Import Util Types CommitteeModel VoteModel LdbModel.
Local Open Scope N_scope.

(* the rules a header must satisfy to receive a vote, given what the rest of the node answered (venv) *)
Record admissible (c : committee) (e : venv) (h : header) : Prop := mkAdm {
  ad_epoch : h_epoch h = cm_epoch c;
  ad_round : 1 <= h_round h <= e_committed e + e_gc_depth e;
  ad_author : In (h_author h) (member_ids c);
  ad_batches : (length (h_payload h) <= 10)%nat;
  ad_workers : forall d w, In (d, w) (h_payload h) -> w = 0;
  ad_nparents : N.of_nat (length (h_parents h)) <= cm_size c;
  ad_seed : e_seed_ok e = true;
  ad_exec : e_exec_ok e = true;
  ad_avail : e_batches_ok e = true;
  ad_time : h_created h <= e_now e + e_drift e;
  ad_parents : exists ps : list cert,
      (* the certificates behind the parent digests: genesis ones in round 1, stored ones otherwise *)
      Forall2 (fun d p => (if h_round h =? 1 then e_genesis e d else e_store e d) = Some p) (h_parents h) ps /\
      (forall p, In p ps -> c_epoch p = h_epoch h /\ c_round p + 1 = h_round h /\ h_created (c_header p) <= h_created h) /\
      NoDup (map c_origin ps) /\
      reached_quorum c (group_power c (map c_origin ps)) = true
}.

(* x is older than y (epochs first, then rounds) *)
Definition older (x y : header) : Prop :=
  h_epoch x < h_epoch y \/ (h_epoch x = h_epoch y /\ h_round x < h_round y).

(* the headers of the requests and the committees of the epoch changes in a history *)
Definition history_ok (real : header -> Prop) (evs : list vev) : Prop :=
  Forall (fun e => match e with
    | VRequest _ h _ _ => real h
    | VNextEpoch c _ => built c
    | _ => True end) evs.
(* distinct headers have distinct digests (hash collisions excluded) *)
Definition collision_free (real : header -> Prop) : Prop :=
  forall h1 h2, real h1 -> real h2 -> h_digest h1 = h_digest h2 -> h1 = h2.
