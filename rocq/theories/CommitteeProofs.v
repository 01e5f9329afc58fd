From Verif Require Import Util Types CommitteeModel.
Local Open Scope N_scope.

Record committee_wf (c : committee) : Prop := {
  wf_auths_sorted : bm_sorted (cm_auths c);
  wf_by_id_sorted : bm_sorted (cm_by_id c);
  wf_len : length (cm_by_id c) = length (cm_auths c);
  wf_size : 1 < cm_size c;
  wf_key : forall k a, In (k, a) (cm_auths c) -> a_key a = k;
  wf_id : forall i a, In (i, a) (cm_by_id c) -> a_id a = i;
  wf_perm : Permutation (map snd (cm_by_id c)) (map snd (cm_auths c));
  wf_quorum : cm_quorum c = 2 * cm_size c / 3 + 1;
  wf_validity : cm_validity c = (cm_size c + 2) / 3;
}.

Lemma add_authority_sorted idof m e : bm_sorted m -> bm_sorted (add_authority idof m e).
Proof. apply bm_insert_sorted. Qed.

Lemma bm_insert_In {V} k (v : V) m x : bm_sorted m -> In x (bm_insert k v m) -> x = (k, v) \/ In x m.
Proof.
  intros Hs Hin. destruct x as [k' v'].
  apply bm_lookup_In in Hin; [|apply bm_insert_sorted; auto].
  rewrite bm_lookup_insert in Hin; auto. destruct (N.eqb_spec k' k).
  - left; congruence.
  - right. apply bm_lookup_In; auto.
Qed.

Lemma built_wf c : built c -> committee_wf c.
Proof.
  intros (idof & epoch & entries & H). unfold build, committee_new in H.
  set (auths := fold_left (add_authority idof) entries []) in *.
  assert (HS : bm_sorted auths /\ forall k a, In (k, a) auths -> a_key a = k).
  { unfold auths. apply fold_left_ind.
    - split; [constructor|simpl; tauto].
    - intros m e _ [Hm Hk]. split; [apply add_authority_sorted; auto|].
      intros k a Hin. unfold add_authority in Hin. apply bm_insert_In in Hin; auto.
      destruct Hin as [E|Hin]; [inversion E; reflexivity|auto]. }
  destruct HS as [HS HK].
  set (byid := bm_of_list (map (fun kv : N * authority => (a_id (snd kv), snd kv)) auths)) in *.
  destruct (1 <? N.of_nat (length byid)) eqn:E1; [|discriminate].
  destruct (N.of_nat (length byid) =? N.of_nat (length auths)) eqn:E2; [|discriminate].
  cbn in H. inversion H; subst c; clear H.
  assert (HL : length byid = length (map (fun kv : N * authority => (a_id (snd kv), snd kv)) auths)).
  { rewrite map_length. lia. }
  destruct (bm_of_list_full _ HL) as [Hnd Hperm]. fold byid in Hperm.
  rewrite map_length in HL.
  constructor; cbn [cm_auths cm_by_id cm_quorum cm_validity]; auto.
  - apply bm_of_list_sorted.
  - unfold cm_size. cbn. lia.
  - intros i a Hin. apply (Permutation_in _ Hperm) in Hin.
    apply in_map_iff in Hin as [[k b] [E Hb]]. inversion E; reflexivity.
  - rewrite Hperm. rewrite map_map. cbn. reflexivity.
  - unfold calculate_validity_threshold, cm_size, total_voting_power_of. cbn [cm_auths].
    destruct ((N.of_nat (length auths) + 2) / 3 =? 0) eqn:E; auto. lia.
Qed.

Lemma wf_ids_eq c : committee_wf c -> member_ids c = bm_keys (cm_by_id c).
Proof.
  intros H. unfold member_ids, cm_authorities, bm_keys. rewrite map_map.
  apply map_ext_in. intros [i a] Hin. simpl. eapply wf_id; eauto.
Qed.

Lemma wf_ids_NoDup c : committee_wf c -> NoDup (member_ids c).
Proof. intros H. rewrite wf_ids_eq; auto. apply bm_NoDup, wf_by_id_sorted; auto. Qed.

Lemma wf_ids_sorted c : committee_wf c -> StronglySorted N.lt (member_ids c).
Proof. intros H. rewrite wf_ids_eq; auto. apply wf_by_id_sorted; auto. Qed.

Lemma member_ids_length c : committee_wf c -> N.of_nat (length (member_ids c)) = cm_size c.
Proof.
  intros H. unfold member_ids, cm_authorities, cm_size. rewrite !map_length, (wf_len _ H). reflexivity.
Qed.

Lemma is_authority_In c id : committee_wf c -> (is_authority c id = true <-> In id (member_ids c)).
Proof.
  intros H. rewrite wf_ids_eq; auto. unfold is_authority.
  destruct (bm_lookup id (cm_by_id c)) eqn:E.
  - split; auto. intros _. apply bm_lookup_In in E; [|apply wf_by_id_sorted; auto].
    apply (in_map fst) in E; auto.
  - apply bm_lookup_None in E. split; [discriminate|tauto].
Qed.

Lemma power_member c id : committee_wf c -> voting_power_by_id c id = if memN id (member_ids c) then 1 else 0.
Proof.
  intros H. pose proof (is_authority_In c id H) as E. rewrite <- memN_In in E.
  unfold is_authority in E. unfold voting_power_by_id, EQUAL_VOTING_POWER.
  destruct (bm_lookup id (cm_by_id c)), (memN id (member_ids c)); auto; intuition discriminate.
Qed.

Lemma group_power_members c g :
  committee_wf c -> group_power c g = N.of_nat (length (filter (fun x => memN x (member_ids c)) g)).
Proof.
  intros H. unfold group_power. induction g as [|x g IH]; auto.
  cbn [map filter]. change (sumN (?a :: ?l)) with (a + sumN l). rewrite IH, power_member; auto.
  destruct (memN x (member_ids c)); cbn [length]; lia.
Qed.

Lemma group_power_incl c g :
  committee_wf c -> incl g (member_ids c) -> group_power c g = N.of_nat (length g).
Proof.
  intros H Hi. rewrite group_power_members; auto. f_equal. f_equal.
  assert (Hf : forall x, In x g -> memN x (member_ids c) = true) by (intros; apply memN_In; auto).
  clear Hi. induction g as [|x g IH]; auto. cbn [filter]. rewrite Hf by (left; auto).
  f_equal. apply IH. intros; apply Hf; right; auto.
Qed.

Lemma quorum_value c : committee_wf c -> cm_quorum c = cm_size c - max_faulty c /\ cm_quorum c <= cm_size c.
Proof. intros H. pose proof (wf_size _ H). rewrite (wf_quorum _ H). unfold max_faulty. lia. Qed.

Lemma validity_value c : committee_wf c -> cm_validity c = max_faulty c + 1.
Proof. intros H. pose proof (wf_size _ H). rewrite (wf_validity _ H). unfold max_faulty. lia. Qed.

Lemma power_inter c A B :
  committee_wf c -> NoDup A -> NoDup B ->
  group_power c A + group_power c B <=
  cm_size c + N.of_nat (length (filter (fun x => memN x (member_ids c)) (interN A B))).
Proof.
  intros H HA HB. rewrite !group_power_members; auto.
  set (M := member_ids c).
  pose proof (inter_lower (filter (fun x => memN x M) A) (filter (fun x => memN x M) B) M) as HI.
  assert (HL : length (interN (filter (fun x => memN x M) A) (filter (fun x => memN x M) B))
             = length (filter (fun x => memN x M) (interN A B))).
  { f_equal. unfold interN. clear HI HA HB. induction A as [|x A IHA]; auto. cbn [filter].
    destruct (memN x M) eqn:Ex; cbn [filter].
    - replace (memN x (filter (fun x0 => memN x0 M) B)) with (memN x B).
      + destruct (memN x B); cbn [filter]; rewrite ?Ex; rewrite IHA; auto.
      + destruct (memN x B) eqn:Eb.
        * symmetry. apply memN_In. apply filter_In. split; auto. apply memN_In; auto.
        * symmetry. apply memN_nIn. intros Hin. apply filter_In in Hin as [Hin _].
          apply memN_In in Hin. congruence.
    - rewrite IHA. destruct (memN x B); cbn [filter]; rewrite ?Ex; auto. }
  rewrite HL in HI. pose proof (member_ids_length c H). fold M in H0.
  assert (length (filter (fun x => memN x M) A) + length (filter (fun x => memN x M) B) <=
          length M + length (filter (fun x => memN x M) (interN A B)))%nat.
  { apply HI; try (apply NoDup_filter; auto).
    all: intros x Hx; apply filter_In in Hx as [_ Hx]; apply memN_In; auto. }
  lia.
Qed.

Lemma quorum_intersection c A B :
  committee_wf c -> NoDup A -> NoDup B ->
  reached_quorum c (group_power c A) = true -> reached_quorum c (group_power c B) = true ->
  exists S, NoDup S /\ (forall x, In x S -> In x A /\ In x B /\ In x (member_ids c)) /\
            max_faulty c + 1 <= N.of_nat (length S).
Proof.
  intros H HA HB QA QB.
  exists (filter (fun x => memN x (member_ids c)) (interN A B)). split; [|split].
  - apply NoDup_filter. apply NoDup_filter; auto.
  - intros x Hx. apply filter_In in Hx as [Hx Hm]. apply memN_In in Hm. apply interN_In in Hx. tauto.
  - pose proof (power_inter c A B H HA HB) as HI. unfold reached_quorum in *.
    pose proof (wf_size _ H). rewrite (wf_quorum _ H) in *. unfold max_faulty. lia.
Qed.

Lemma quorum_honest c A B F :
  committee_wf c -> NoDup A -> NoDup B ->
  reached_quorum c (group_power c A) = true -> reached_quorum c (group_power c B) = true ->
  N.of_nat (length F) <= max_faulty c ->
  exists x, In x A /\ In x B /\ In x (member_ids c) /\ ~ In x F.
Proof.
  intros H HA HB QA QB HF.
  destruct (quorum_intersection c A B H HA HB QA QB) as (S & HS & HSin & HL).
  destruct (longer_has_other S F HS) as [x [Hx Hn]]; [lia|].
  exists x. destruct (HSin _ Hx) as (? & ? & ?). auto.
Qed.

Lemma validity_honest c A F :
  committee_wf c -> NoDup A -> reached_validity c (group_power c A) = true ->
  N.of_nat (length F) <= max_faulty c ->
  exists x, In x A /\ In x (member_ids c) /\ ~ In x F.
Proof.
  intros H HA VA HF. unfold reached_validity in VA. rewrite validity_value, group_power_members in VA; auto.
  destruct (longer_has_other (filter (fun x => memN x (member_ids c)) A) F) as [x [Hx Hn]].
  - apply NoDup_filter; auto.
  - lia.
  - apply filter_In in Hx as [Hx Hm]. apply memN_In in Hm. eauto.
Qed.

Lemma validity_meets_quorum c A B :
  committee_wf c -> NoDup A -> NoDup B ->
  reached_validity c (group_power c A) = true -> reached_quorum c (group_power c B) = true ->
  exists x, In x A /\ In x B /\ In x (member_ids c).
Proof.
  intros H HA HB VA QB. pose proof (power_inter c A B H HA HB) as HI.
  unfold reached_quorum, reached_validity in *. pose proof (wf_size _ H).
  rewrite validity_value in VA; auto. rewrite (wf_quorum _ H) in QB. unfold max_faulty in *.
  destruct (filter (fun x => memN x (member_ids c)) (interN A B)) as [|x l] eqn:E.
  - simpl in HI. lia.
  - exists x. assert (Hx : In x (filter (fun x => memN x (member_ids c)) (interN A B))) by (rewrite E; left; auto).
    apply filter_In in Hx as [Hx Hm]. apply memN_In in Hm. apply interN_In in Hx. tauto.
Qed.

(* honest members alone reach the quorum *)
Lemma honest_reach_quorum c F :
  committee_wf c -> N.of_nat (length F) <= max_faulty c ->
  reached_quorum c (group_power c (diffN (member_ids c) F)) = true.
Proof.
  intros H HF. rewrite group_power_incl; auto.
  - pose proof (inter_diff_len (member_ids c) F). pose proof (member_ids_length c H).
    assert (length (interN (member_ids c) F) <= length F)%nat.
    { apply NoDup_incl_length; [apply NoDup_filter, wf_ids_NoDup; auto|].
      intros x Hx. apply interN_In in Hx; tauto. }
    unfold reached_quorum. destruct (quorum_value c H). lia.
  - intros x Hx. apply diffN_In in Hx; tauto.
Qed.
