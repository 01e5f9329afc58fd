(* C01, C02: thresholds of every committee the builder can produce. *)
From Verif Require Import Util Types CommitteeModel CommitteeProofs.
Local Open Scope N_scope.

(* C01. `group_power c A` is the summed voting power of the identifiers in A; identifiers outside the committee
   contribute nothing. *)
Theorem C01_quorum_intersection :
  forall c, built c ->
  forall A B, NoDup A -> NoDup B ->
  reached_quorum c (group_power c A) = true ->
  reached_quorum c (group_power c B) = true ->
  exists S, NoDup S /\ (forall x, In x S -> In x A /\ In x B /\ In x (member_ids c)) /\
            (cm_size c - 1) / 3 + 1 <= N.of_nat (length S).
Proof. exact (fun c Hb A B => quorum_intersection c A B (built_wf c Hb)). Qed.
Print Assumptions C01_quorum_intersection.

Theorem C01_quorums_share_honest :
  forall c, built c ->
  forall A B F, NoDup A -> NoDup B ->
  reached_quorum c (group_power c A) = true ->
  reached_quorum c (group_power c B) = true ->
  N.of_nat (length F) <= (cm_size c - 1) / 3 ->
  exists x, In x A /\ In x B /\ In x (member_ids c) /\ ~ In x F.
Proof. exact (fun c Hb A B F => quorum_honest c A B F (built_wf c Hb)). Qed.
Print Assumptions C01_quorums_share_honest.

Theorem C01_quorum_value :
  forall c, built c -> cm_quorum c = cm_size c - (cm_size c - 1) / 3 /\ cm_quorum c <= cm_size c.
Proof. exact (fun c Hb => quorum_value c (built_wf c Hb)). Qed.
Print Assumptions C01_quorum_value.

Theorem C01_honest_members_reach_quorum :
  forall c, built c ->
  forall F, N.of_nat (length F) <= (cm_size c - 1) / 3 ->
  reached_quorum c (group_power c (diffN (member_ids c) F)) = true.
Proof. exact (fun c Hb F => honest_reach_quorum c F (built_wf c Hb)). Qed.
Print Assumptions C01_honest_members_reach_quorum.

(* every member counts exactly one, nobody else counts *)
Theorem C01_equal_power :
  forall c, built c ->
  forall id, voting_power_by_id c id = if memN id (member_ids c) then 1 else 0.
Proof. exact (fun c Hb id => power_member c id (built_wf c Hb)). Qed.
Print Assumptions C01_equal_power.

Theorem C02_validity_has_honest :
  forall c, built c ->
  forall A F, NoDup A ->
  reached_validity c (group_power c A) = true ->
  N.of_nat (length F) <= (cm_size c - 1) / 3 ->
  exists x, In x A /\ In x (member_ids c) /\ ~ In x F.
Proof. exact (fun c Hb A F => validity_honest c A F (built_wf c Hb)). Qed.
Print Assumptions C02_validity_has_honest.

Theorem C02_validity_meets_quorum :
  forall c, built c ->
  forall A B, NoDup A -> NoDup B ->
  reached_validity c (group_power c A) = true ->
  reached_quorum c (group_power c B) = true ->
  exists x, In x A /\ In x B /\ In x (member_ids c).
Proof. exact (fun c Hb A B => validity_meets_quorum c A B (built_wf c Hb)). Qed.
Print Assumptions C02_validity_meets_quorum.

(* the validity threshold is exactly f+1: f members never reach it *)
Theorem C02_validity_value :
  forall c, built c -> cm_validity c = (cm_size c - 1) / 3 + 1.
Proof. exact (fun c Hb => validity_value c (built_wf c Hb)). Qed.
Print Assumptions C02_validity_value.

(* Non-vacuity: a seven-member committee (keys 10..70, ids = key*7 mod 101), two quorums of 5, f = 2. *)
Definition ex_idof (k : N) : N := (k * 7) mod 101.
Definition ex_entries : list (N * N) := [(50,1);(10,2);(20,3);(70,4);(30,5);(60,6);(40,7)].
Example ex_committee_builds :
  exists c, build ex_idof 3 ex_entries = Some c /\ built c /\
    cm_size c = 7 /\ cm_quorum c = 5 /\ cm_validity c = 3 /\
    member_ids c = [8; 16; 39; 47; 70; 78; 86] /\
    reached_quorum c (group_power c [8; 16; 39; 47; 70]) = true /\
    reached_quorum c (group_power c [39; 47; 70; 78; 86]) = true /\
    reached_quorum c (group_power c [8; 16; 39; 47; 999]) = false.
Proof.
  destruct (build ex_idof 3 ex_entries) as [c|] eqn:E; [|vm_compute in E; discriminate].
  exists c. split; auto. split; [exists ex_idof, 3, ex_entries; auto|].
  vm_compute in E. inversion E; subst c. vm_compute. repeat split; reflexivity.
Qed.
