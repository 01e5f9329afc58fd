From Verif Require Import Util Types CommitteeModel CommitteeProofs LeaderModel.
Local Open Scope N_scope.
Arguments sumN : simpl never.

(** ** sorting *)
Lemma ins_desc_perm x l : Permutation (ins_desc x l) (x :: l).
Proof.
  induction l as [|y t IH]; simpl; [reflexivity|].
  destruct (before x y); [reflexivity|].
  rewrite IH. constructor.
Qed.
Lemma by_score_perm s : Permutation (by_score_desc s) (sc_map s).
Proof.
  unfold by_score_desc. induction (sc_map s) as [|x l IH]; simpl; [reflexivity|].
  rewrite ins_desc_perm. constructor. assumption.
Qed.

Definition desc (a b : N * N) : Prop := snd b <= snd a.
Lemma ins_desc_sorted x l : StronglySorted desc l -> StronglySorted desc (ins_desc x l).
Proof.
  induction l as [|y t IH]; simpl; intros H; [repeat constructor|].
  inversion H as [|? ? Hs Hf]; subst. unfold before.
  destruct ((snd y <? snd x) || ((snd y =? snd x) && (fst y <=? fst x))) eqn:E.
  - constructor; [assumption|]. assert (snd y <= snd x).
    { apply orb_true_iff in E as [E|E]; [apply N.ltb_lt in E; lia|].
      apply andb_true_iff in E as [E _]. apply N.eqb_eq in E. lia. }
    constructor; [assumption|]. rewrite Forall_forall in *. unfold desc in *.
    intros z Hz. specialize (Hf z Hz). lia.
  - constructor; [auto|].
    rewrite Forall_forall in *. intros z Hz.
    apply (Permutation_in _ (ins_desc_perm x t)) in Hz as [<-|Hz]; [|auto].
    unfold desc. apply orb_false_iff in E as [E _]. apply N.ltb_ge in E. assumption.
Qed.
Lemma by_score_sorted s : StronglySorted desc (by_score_desc s).
Proof.
  unfold by_score_desc. induction (sc_map s); simpl; [constructor|]. apply ins_desc_sorted. assumption.
Qed.
Lemma head_max x l : StronglySorted desc (x :: l) -> forall y, In y (x :: l) -> snd y <= snd x.
Proof.
  intros H y [<-|Hy]; [lia|]. inversion H as [|? ? Hs Hf]; subst.
  rewrite Forall_forall in Hf. apply Hf. assumption.
Qed.
Lemma last_In {A} (x d : A) l : In (last (x :: l) d) (x :: l).
Proof.
  revert x; induction l as [|y l IH]; intros x; [left; reflexivity|].
  right. apply IH.
Qed.
Lemma last_min l d : StronglySorted desc l -> forall y, In y l -> snd (last l d) <= snd y.
Proof.
  induction l as [|x l IH]; intros H y Hy; [contradiction|].
  inversion H as [|? ? Hs Hf]; subst. destruct l as [|z l].
  - destruct Hy as [<-|[]]. simpl. lia.
  - destruct Hy as [<-|Hy].
    + rewrite Forall_forall in Hf. apply Hf. apply (last_In z d l).
    + apply (IH Hs y Hy).
Qed.

(** ** pick *)
Lemma pick_In c p l a : In a (pick c p l) <->
  exists id r, In (id, r) l /\ p r = true /\ cm_authority c id = Some a.
Proof.
  unfold pick. rewrite in_flat_map. split.
  - intros ([id r] & Hin & H). simpl in H. destruct (p r) eqn:E; [|contradiction].
    destruct (cm_authority c id) as [b|] eqn:F; [|contradiction].
    destruct H as [<-|[]]. exists id, r. auto.
  - intros (id & r & Hin & Hp & Ha). exists (id, r). split; [assumption|]. simpl.
    rewrite Hp, Ha. left. reflexivity.
Qed.

Section WithCommittee.
Variable c : committee.
Hypothesis wf : committee_wf c.

Lemma authority_id id a : cm_authority c id = Some a -> a_id a = id /\ In a (cm_authorities c).
Proof.
  unfold cm_authority. intros H. apply bm_lookup_In in H; [|apply (wf_by_id_sorted c wf)].
  split; [apply (wf_id c wf); assumption|]. unfold cm_authorities.
  apply (in_map snd) in H. exact H.
Qed.
Lemma authority_of a : In a (cm_authorities c) -> cm_authority c (a_id a) = Some a.
Proof.
  unfold cm_authorities. intros H. apply in_map_iff in H as ([i b] & E & Hin). simpl in E. subst b.
  assert (i = a_id a) by (symmetry; apply (wf_id c wf); assumption). subst i.
  apply bm_lookup_In; [apply (wf_by_id_sorted c wf)|assumption].
Qed.

Lemma pick_ids_sub p l : NoDup (map fst l) -> NoDup (map a_id (pick c p l)) /\
  forall x, In x (map a_id (pick c p l)) -> In x (map fst l).
Proof.
  induction l as [|[id r] l IH]; simpl; intros H; [split; [constructor|auto]|].
  inversion H as [|? ? Hn Hd]; subst. destruct (IH Hd) as [I1 I2].
  destruct (p r); simpl; [|split; [assumption|auto]].
  destruct (cm_authority c id) as [a|] eqn:E; simpl; [|split; [assumption|auto]].
  destruct (authority_id _ _ E) as [-> _].
  split; [constructor; [intros X; apply Hn, I2, X|assumption]|].
  intros x [<-|Hx]; auto.
Qed.

(** pick keeps one authority per matching score when every scored id is a member *)
Lemma pick_length p l : (forall id, In id (map fst l) -> In id (member_ids c)) ->
  length (pick c p l) = length (filter (fun e => p (snd e)) l).
Proof.
  induction l as [|[id r] l IH]; intros H; [reflexivity|].
  specialize (IH (fun i Hi => H i (or_intror Hi))).
  cbn [filter snd]. unfold pick in *. cbn [flat_map snd fst]. destruct (p r).
  - assert (M : In id (member_ids c)) by (apply H; left; reflexivity).
    unfold member_ids in M. apply in_map_iff in M as (a & <- & Ha).
    rewrite (authority_of a Ha). simpl. f_equal. exact IH.
  - exact IH.
Qed.

Lemma bad_loop_spec l thr sd : 0 < sd -> forall fuel ceil,
  (N.to_nat ceil < fuel)%nat ->
  exists bad ceil', bad_loop c fuel l thr sd ceil ceil = Some (bad, ceil') /\
    bad = pick c (fun r => r <=? ceil') (rev l) /\ ceil' <= ceil /\
    (N.of_nat (length bad) <= thr \/ ceil' = 0).
Proof.
  intros Hsd. induction fuel as [|fuel IH]; intros ceil Hf; [lia|]. cbn [bad_loop].
  destruct (N.leb_spec (N.of_nat (length (pick c (fun r => r <=? ceil) (rev l)))) thr) as [L|L].
  - eexists _, ceil. split; [reflexivity|]. split; [reflexivity|]. split; [lia|]. left. assumption.
  - destruct (N.eqb_spec ceil (ceil - sd)) as [E|E].
    + assert (ceil = 0) by lia. subst ceil. eexists _, (0 - sd). split; [reflexivity|].
      replace (0 - sd) with 0 by lia. split; [reflexivity|]. split; [lia|]. right. reflexivity.
    + destruct (IH (ceil - sd)) as (bad & ceil' & A & B & C & D); [lia|].
      exists bad, ceil'. repeat split; auto. lia.
Qed.

Lemma good_loop_spec l thr sd bc : 0 < sd -> forall fuel floor,
  (N.to_nat floor < fuel)%nat -> bc + 1 <= floor ->
  exists good floor', good_loop c fuel l thr sd bc floor floor = Some good /\
    good = pick c (fun r => floor' <=? r) l /\ bc + 1 <= floor' <= floor /\
    (thr <= N.of_nat (length good) \/ floor' = bc + 1).
Proof.
  intros Hsd. induction fuel as [|fuel IH]; intros floor Hf Hb; [lia|]. cbn [good_loop].
  destruct (N.leb_spec thr (N.of_nat (length (pick c (fun r => floor <=? r) l)))) as [L|L].
  - eexists _, floor. split; [reflexivity|]. split; [reflexivity|]. split; [lia|]. left. assumption.
  - destruct (N.eqb_spec floor (N.max (floor - sd) (bc + 1))) as [E|E].
    + eexists _, floor. split; [reflexivity|]. split; [reflexivity|]. split; [lia|]. right. lia.
    + destruct (IH (N.max (floor - sd) (bc + 1))) as (good & f' & A & B & C & D); [lia|lia|].
      exists good, f'. repeat split; auto; lia.
Qed.

(** everything the callers need to know about a table *)
Definition score_of (s : scores) (id : N) : N := match bm_lookup id (sc_map s) with Some r => r | None => 0 end.

Lemma all_zero_variance l : l <> [] -> (forall e, In e l -> snd e = 0) -> variance l = 0.
Proof.
  intros _ H. unfold variance.
  assert (S0 : sumN (map snd l) = 0).
  { induction l as [|e l IH]; [reflexivity|].
    change (snd e + sumN (map snd l) = 0).
    rewrite (H e (or_introl eq_refl)), IH by (intros x Hx; apply H; right; assumption). reflexivity. }
  assert (M0 : mean l = 0).
  { unfold mean. rewrite S0. destruct l; [reflexivity|]. apply N.div_0_l. simpl. lia. }
  rewrite M0.
  assert (V0 : sumN (map (fun e : N * N => absdiff (snd e) 0 * absdiff (snd e) 0) l) = 0).
  { clear S0 M0. induction l as [|e l IH]; [reflexivity|].
    change (absdiff (snd e) 0 * absdiff (snd e) 0 +
            sumN (map (fun e : N * N => absdiff (snd e) 0 * absdiff (snd e) 0) l) = 0).
    rewrite (H e (or_introl eq_refl)), IH by (intros x Hx; apply H; right; assumption). reflexivity. }
  rewrite V0. destruct l; [reflexivity|]. apply N.div_0_l. simpl. lia.
Qed.

Theorem table_new_spec (fsqrt : N -> N) round s pct :
  fsqrt 0 = 0 -> bm_sorted (sc_map s) -> bm_keys (sc_map s) = member_ids c ->
  sc_final s = true -> pct <= 33 ->
  exists t, table_new fsqrt c round s pct = Some t /\ st_round t = round /\
    NoDup (map a_id (st_bad t)) /\ NoDup (map a_id (st_good t)) /\
    ((st_bad t = [] /\ st_good t = []) \/
     exists ceil floor,
       ceil < floor /\ st_good t <> [] /\
       (forall a, In a (st_bad t) <-> In a (cm_authorities c) /\ score_of s (a_id a) <= ceil) /\
       (forall a, In a (st_good t) <-> In a (cm_authorities c) /\ floor <= score_of s (a_id a)) /\
       (N.of_nat (length (st_bad t)) <= N.max 1 (cm_size c * pct / 100) \/ ceil = 0) /\
       (N.max 1 (cm_size c * pct / 100) <= N.of_nat (length (st_good t)) \/ floor = ceil + 1)).
Proof.
  intros H0 HS HK HF HP.
  assert (HPm : Permutation (by_score_desc s) (sc_map s)) by apply by_score_perm.
  assert (HSo : StronglySorted desc (by_score_desc s)) by apply by_score_sorted.
  assert (ND : NoDup (map fst (by_score_desc s))).
  { eapply Permutation_NoDup; [apply Permutation_sym, Permutation_map, HPm|].
    apply (bm_NoDup (sc_map s) HS). }
  assert (LN : N.of_nat (length (by_score_desc s)) = cm_size c).
  { rewrite (Permutation_length HPm). rewrite <- (member_ids_length c wf), <- HK.
    unfold bm_keys. rewrite map_length. reflexivity. }
  assert (LK : forall id r, In (id, r) (by_score_desc s) <-> (In id (member_ids c) /\ score_of s id = r)).
  { intros id r. split.
    - intros H. apply (Permutation_in _ HPm) in H. split.
      + rewrite <- HK. apply (in_map fst) in H. exact H.
      + unfold score_of. apply bm_lookup_In in H; [|assumption]. rewrite H. reflexivity.
    - intros [Hm Hr]. apply (Permutation_in _ (Permutation_sym HPm)).
      rewrite <- HK in Hm. apply in_map_iff in Hm as ([i r'] & E & Hin). simpl in E. subst i.
      unfold score_of in Hr. rewrite (proj2 (bm_lookup_In id r' (sc_map s) HS) Hin) in Hr. congruence. }
  assert (PK : forall p l', (forall x, In x l' <-> In x (by_score_desc s)) -> forall a,
     In a (pick c p l') <-> In a (cm_authorities c) /\ p (score_of s (a_id a)) = true).
  { intros p l' Hl a. rewrite pick_In. split.
    - intros (id & r & Hin & Hp & Ha). destruct (authority_id _ _ Ha) as [Hi Hm].
      apply Hl, LK in Hin as [_ <-]. rewrite Hi. auto.
    - intros [Hm Hp]. exists (a_id a), (score_of s (a_id a)). split.
      + apply Hl, LK. split; [|reflexivity]. unfold member_ids. apply in_map. assumption.
      + split; [assumption|]. apply authority_of. assumption. }
  unfold table_new. rewrite (proj2 (N.leb_le pct 33) HP), HF. cbn [negb].
  destruct (by_score_desc s) as [|[hid highest] l] eqn:EL.
  { simpl in LN. pose proof (wf_size c wf). lia. }
  set (L := (hid, highest) :: l) in *. cbv zeta.
  set (sd := fsqrt (variance L)) in *. set (thr := list_threshold L pct) in *.
  assert (THR : thr = N.max 1 (cm_size c * pct / 100)).
  { unfold thr, list_threshold. rewrite LN. reflexivity. }
  set (lowest := snd (last L (0, 0))).
  destruct ((sd =? 0) || (highest - 2 * sd <? lowest)) eqn:EB.
  - exists (mkTable round [] []). repeat split; auto; constructor || (left; auto).
  - apply orb_false_iff in EB as [E1 E2]. apply N.eqb_neq in E1. apply N.ltb_ge in E2.
    assert (Hsd : 0 < sd) by lia.
    assert (Hh : 0 < highest).
    { destruct (N.eq_dec highest 0) as [Z|]; [|lia]. exfalso. apply E1. unfold sd.
      rewrite all_zero_variance; [exact H0|discriminate|].
      intros e He. pose proof (head_max _ _ HSo e He). simpl in H. lia. }
    destruct (bad_loop_spec L thr sd Hsd (S (S (N.to_nat highest))) (highest - 2 * sd) ltac:(lia))
      as (bad & bc & A1 & A2 & A3 & A4).
    rewrite A1.
    destruct (good_loop_spec L thr sd bc Hsd (S (S (N.to_nat highest)))
                (N.max (highest - sd) (bc + 1)) ltac:(lia) ltac:(lia))
      as (good & fl & B1 & B2 & B3 & B4).
    rewrite B1.
    assert (GH : exists a, In a good).
    { assert (Hm : In hid (member_ids c)).
      { apply (LK hid highest). left. reflexivity. }
      unfold member_ids in Hm. apply in_map_iff in Hm as (a & Ha & Hin). exists a.
      rewrite B2. apply (PK (fun r => fl <=? r) L ltac:(reflexivity)). split; [assumption|].
      rewrite Ha. apply N.leb_le.
      assert (score_of s hid = highest).
      { apply (LK hid highest). left. reflexivity. }
      lia. }
    destruct GH as (g0 & Hg0).
    exists (mkTable round good bad). split.
    { destruct bad; [reflexivity|]. destruct good; [contradiction|reflexivity]. }
    cbn [st_round st_bad st_good]. split; [reflexivity|]. split.
    { rewrite A2. apply pick_ids_sub. rewrite map_rev.
      eapply Permutation_NoDup; [apply Permutation_rev|]. exact ND. }
    split. { rewrite B2. apply pick_ids_sub. exact ND. }
    right. exists bc, fl. split; [lia|]. split; [intros X; rewrite X in Hg0; contradiction|].
    split. { intros a. rewrite A2, (PK (fun r => r <=? bc) (rev L)).
             - rewrite N.leb_le. reflexivity.
             - intros x. rewrite <- in_rev. reflexivity. }
    split. { intros a. rewrite B2, (PK (fun r => fl <=? r) L ltac:(reflexivity)). rewrite N.leb_le. reflexivity. }
    rewrite <- THR. split; assumption.
Qed.
End WithCommittee.
