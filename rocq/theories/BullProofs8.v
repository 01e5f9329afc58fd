From Verif Require Import Util Types CommitteeModel CommitteeProofs CertModel LeaderModel LeaderProofs GasModel BullModel BullSpec BullProofs1 BullProofs2 BullProofs3 BullProofs4 BullProofs5 BullProofs6 BullProofs7.
Local Open Scope N_scope.

Section Facts.
Variable fsqrt : N -> N.
Variable choose : list authority -> N -> option authority.
Variable fold_seed : N -> N -> N -> N.
Variable legacy_rand : N -> N.
Variable epoch_root : N -> N.
Variable seed_active : N -> bool.
Variable cm : committee.
Variables gc_depth num pct : N.
Variable G : header -> Prop.
Hypothesis wf : committee_wf cm.
Hypothesis ok : dag_ok cm G.
Hypothesis sqrt0 : fsqrt 0 = 0.
Hypothesis pct_ok : pct <= 33.
Hypothesis choose_in : forall l r, l <> [] -> exists a, choose l r = Some a /\ In a l.
Hypothesis depth_ok : gc_depth <= 100.

Notation Inv := (Inv fsqrt epoch_root cm gc_depth pct G).
Notation cstep := (cstep fsqrt choose fold_seed legacy_rand seed_active cm gc_depth num pct).
Notation justified := (justified fsqrt choose fold_seed legacy_rand epoch_root seed_active cm gc_depth num pct G).
Notation reach := (reach fsqrt choose fold_seed legacy_rand epoch_root seed_active cm gc_depth num pct G).

Lemma chain_wm_ge c h : In h (flat_map sd_headers c) -> h_round h <= chain_wm c (h_author h).
Proof. intros H. unfold chain_wm. apply maxN_ge. apply hrounds_In. exists h. auto. Qed.

Lemma chain_wm_witness c a r : 0 < r -> r <= chain_wm c a -> exists h, In h (flat_map sd_headers c) /\ h_author h = a /\ r <= h_round h.
Proof.
  intros Hr H. unfold chain_wm in H.
  assert (X : forall l, r <= maxN l -> exists x, In x l /\ r <= x).
  { clear - Hr. induction l as [|x l IH]; [change (maxN []) with 0; lia|].
    change (maxN (x :: l)) with (N.max x (maxN l)). intros H. destruct (N.le_gt_cases r x) as [Q|Q].
    - exists x. split; [left; reflexivity|assumption].
    - destruct IH as (y & Hy & L); [lia|]. exists y. split; [right; assumption|assumption]. }
  destruct (X _ H) as (x & Hx & L). apply hrounds_In in Hx as (h & Hh & Ha & <-). exists h. auto.
Qed.

(* the certificates of one commit, in the dag of the node that made it *)
Lemma commit_certs s chain X L s' sd : Inv s chain -> cstep s X L s' sd ->
  exists R, sd_headers sd = map c_header (sort_by_round R) /\ sd_leader sd = c_header L /\ In L (b_dag s) /\
    c_round L <= c_round X /\ b_committed s < c_round L /\
    NoDup (map c_digest R) /\
    (forall y, In y R <-> ereach (b_dag s) (b_last s) (c_round L - gc_depth + 1) L y) /\
    (forall y, In y R -> In y (b_dag s) /\ chain_wm chain (c_origin y) < c_round y).
Proof.
  intros I C. destruct (cstep_facts fsqrt choose fold_seed legacy_rand epoch_root seed_active cm gc_depth num pct G
    wf ok sqrt0 pct_ok choose_in s chain X L s' sd I C) as (R & HL & Hc & He & HX & D & F1 & _ & _ & _ & F5).
  destruct (dfs_top cm G ok (b_dag s) (b_last s) (b_gc s) _ L (i_dag _ _ _ _ _ _ _ _ I) HL _ R D) as (ND & HLR & HR).
  exists R. split; [exact F1|]. split; [exact F5|]. split; [exact HL|]. split; [exact HX|]. split; [exact Hc|].
  split; [exact ND|]. split; [exact HR|].
  intros y Hy. apply HR in Hy. apply ereach_facts in Hy.
  destruct Hy as [->|(Hyd & Hyr & Live)].
  - split; [exact HL|].
    pose proof (chain_wm_le fsqrt fold_seed legacy_rand epoch_root seed_active cm gc_depth pct G sqrt0 pct_ok s chain (c_origin L) I). lia.
  - split; [assumption|]. unfold liveb in Live. pose proof (i_wm _ _ _ _ _ _ _ _ I (c_origin y)) as W.
    pose proof (di_above _ _ _ (i_dag _ _ _ _ _ _ _ _ I) y Hyd) as Ab. lia.
Qed.

Lemma commit_above chain : justified chain -> forall k d h, nth_error chain k = Some d -> In h (sd_headers d) ->
  G h /\ chain_wm (firstn k chain) (h_author h) < h_round h.
Proof.
  intros J k d h N Hh.
  destruct (justified_nth fsqrt choose fold_seed legacy_rand epoch_root seed_active cm gc_depth num pct G sqrt0 pct_ok choose_in depth_ok chain J k d N)
    as (s & X & L & s' & I & C).
  destruct (commit_certs _ _ _ _ _ _ I C) as (R & F1 & _ & _ & _ & _ & _ & _ & HR).
  rewrite F1 in Hh. apply in_map_iff in Hh as (y & <- & Hy). apply (Permutation_in _ (sort_perm R)) in Hy.
  destruct (HR y Hy) as [Hd Hw]. split; [apply (di_G _ _ _ (i_dag _ _ _ _ _ _ _ _ I)); assumption|exact Hw].
Qed.

Lemma in_firstn {A} (c : list A) i k d : nth_error c i = Some d -> (i < k)%nat -> In d (firstn k c).
Proof.
  revert i k. induction c as [|a c IH]; intros i k H L; [destruct i; discriminate|].
  destruct k as [|k]; [lia|]. destruct i as [|i]; [inversion H; left; reflexivity|].
  right. eapply IH; [exact H|lia].
Qed.
Lemma in_firstn_inv {A} (c : list A) k d : In d (firstn k c) -> exists i, (i < k)%nat /\ nth_error c i = Some d.
Proof.
  revert k. induction c as [|a c IH]; intros k H; [rewrite firstn_nil in H; contradiction|].
  destruct k as [|k]; [contradiction|]. destruct H as [->|H]; [exists O; split; [lia|reflexivity]|].
  destruct (IH k H) as (i & L & E). exists (S i). split; [lia|exact E].
Qed.

(* C09 *)
Lemma rounds_forward chain : justified chain -> forall i j d e h g, (i < j)%nat ->
  nth_error chain i = Some d -> nth_error chain j = Some e -> In h (sd_headers d) -> In g (sd_headers e) ->
  h_author h = h_author g -> h_round h < h_round g.
Proof.
  intros J i j d e h g L Ni Nj Hh Hg EA. destruct (commit_above chain J j e g Nj Hg) as [_ W].
  rewrite <- EA in W.
  assert (H : In h (flat_map sd_headers (firstn j chain))).
  { apply in_flat_map. exists d. split; [eapply in_firstn; eassumption|assumption]. }
  pose proof (chain_wm_ge _ _ H). lia.
Qed.

Lemma no_dup chain : justified chain -> NoDup (map h_digest (flat_map sd_headers chain)).
Proof.
  intros J. pose proof J as J0. induction J as [|chain d s X L s' J IH I C]; [constructor|].
  rewrite flat_map_app, map_app. cbn [flat_map]. rewrite app_nil_r.
  destruct (commit_certs _ _ _ _ _ _ I C) as (R & F1 & _ & _ & _ & _ & ND & _ & HR).
  apply NoDup_app_intro.
  - apply IH. exact J.
  - rewrite F1, map_map. eapply Permutation_NoDup; [apply Permutation_map, Permutation_sym, sort_perm|exact ND].
  - intros g H1 H2. apply in_map_iff in H1 as (h1 & E1 & H1). apply in_map_iff in H2 as (h2 & E2 & H2).
    apply in_flat_map in H1 as (e & He & H1). apply In_nth_error in He as (i & Ni).
    assert (Li : (i < length chain)%nat) by (apply nth_error_Some; congruence).
    assert (Nd : nth_error (chain ++ [d]) (length chain) = Some d) by (rewrite nth_error_app2, Nat.sub_diag by lia; reflexivity).
    assert (Ni' : nth_error (chain ++ [d]) i = Some e) by (rewrite nth_error_app1; assumption).
    destruct (commit_above _ J0 _ _ _ Ni' H1) as [G1 _]. destruct (commit_above _ J0 _ _ _ Nd H2) as [G2 _].
    assert (h1 = h2) by (apply (d_inj _ _ ok); congruence). subst h2.
    pose proof (rounds_forward _ J0 i (length chain) e d h1 h1 Li Ni' Nd H1 H2 eq_refl). lia.
Qed.

(* C10 *)
Lemma ereach_hpath s L y stop (D : header -> Prop) : dagInv G (b_dag s) (b_gc s) ->
  (forall z, ereach (b_dag s) (b_last s) stop L z -> D (c_header z)) ->
  ereach (b_dag s) (b_last s) stop L y -> hpath D (c_header L) (c_header y).
Proof.
  intros I HD P.
  assert (SN : forall a b c, hpath D a b -> D c -> refers b c -> hpath D a c).
  { clear. intros a b c H. induction H as [h|h p q Hp R H IH]; intros Dc RC.
    - eapply hp_step; [exact Dc|exact RC|apply hp_refl].
    - eapply hp_step; [exact Hp|exact R|]. apply IH; assumption. }
  induction P as [|b z P IH E]; [apply hp_refl|].
  eapply SN; [exact IH|apply HD; eapply e_step; eassumption|].
  destruct E as (_ & _ & E1 & E2 & _). split; assumption.
Qed.

Lemma commit_history chain : justified chain -> forall k d, nth_error chain k = Some d ->
  (forall h, In h (sd_headers d) -> hpath (fun p => In p (sd_headers d)) (sd_leader d) h) /\
  (forall h p, In h (sd_headers d) -> sd_round d - gc_depth + 1 < h_round h -> In p (h_parents h) ->
    exists q, G q /\ h_digest q = p /\ h_round q + 1 = h_round h /\
      (In q (sd_headers d) \/ exists i e g, (i < k)%nat /\ nth_error chain i = Some e /\ In g (sd_headers e) /\
                                          h_author g = h_author q /\ h_round q <= h_round g)).
Proof.
  intros J k d N.
  destruct (justified_nth fsqrt choose fold_seed legacy_rand epoch_root seed_active cm gc_depth num pct G sqrt0 pct_ok choose_in depth_ok chain J k d N)
    as (s & X & L & s' & I & C).
  destruct (commit_certs _ _ _ _ _ _ I C) as (R & F1 & FL & HL & _ & Hc & _ & HRE & HR).
  assert (MEM : forall y, In y R <-> In (c_header y) (sd_headers d) /\ In y (b_dag s)).
  { intros y. rewrite F1. split.
    - intros Hy. split; [|apply HR; assumption]. apply in_map. apply (Permutation_in _ (Permutation_sym (sort_perm R))). assumption.
    - intros [H Hyd]. apply in_map_iff in H as (z & E & Hz). apply (Permutation_in _ (sort_perm R)) in Hz.
      destruct (HR z Hz) as [Hzd _]. assert (z = y) by (apply (uniq_header G _ _ _ _ (i_dag _ _ _ _ _ _ _ _ I)); assumption).
      subst z. assumption. }
  split.
  - intros h Hh. rewrite F1 in Hh. apply in_map_iff in Hh as (y & <- & Hy). apply (Permutation_in _ (sort_perm R)) in Hy.
    rewrite FL. apply (ereach_hpath s L y (c_round L - gc_depth + 1) _ (i_dag _ _ _ _ _ _ _ _ I)).
    + intros z Hz. apply HRE in Hz. apply MEM. assumption.
    + apply HRE. assumption.
  - intros h p Hh Hr Hp. rewrite F1 in Hh. apply in_map_iff in Hh as (x & <- & Hx).
    apply (Permutation_in _ (sort_perm R)) in Hx. destruct (HR x Hx) as [Hxd _].
    assert (SR : sd_round d = c_round L) by (unfold sd_round; rewrite FL; reflexivity). rewrite SR in Hr.
    change (h_round (c_header x)) with (c_round x) in *.
    pose proof (i_gc _ _ _ _ _ _ _ _ I) as EG.
    destruct (di_closed _ _ _ (i_dag _ _ _ _ _ _ _ _ I) x Hxd) with (p := p) as (y & Hy & Hyr & Hyd); [lia|exact Hp|].
    exists (c_header y). split; [apply (di_G _ _ _ (i_dag _ _ _ _ _ _ _ _ I)); assumption|]. split; [exact Hyd|]. split; [exact Hyr|].
    destruct (N.lt_ge_cases (wm (b_last s) (c_origin y)) (c_round y)) as [LV|LV].
    + left. apply MEM. apply HRE. eapply e_step; [apply HRE; exact Hx|].
      split; [lia|]. split; [assumption|]. split; [assumption|]. split; [rewrite Hyd; exact Hp|exact LV].
    + right. pose proof (i_wm _ _ _ _ _ _ _ _ I (c_origin y)) as W.
      pose proof (di_above _ _ _ (i_dag _ _ _ _ _ _ _ _ I) y Hy) as Ab.
      destruct (chain_wm_witness (firstn k chain) (c_origin y) (c_round y)) as (g & Hg & Ga & Gr); [lia|lia|].
      apply in_flat_map in Hg as (e & He & Hg). apply in_firstn_inv in He as (i & Li & Ni).
      exists i, e, g. split; [assumption|]. split; [assumption|]. split; [assumption|]. split; [exact Ga|exact Gr].
Qed.

(* C12 *)
Lemma wrel_low d t gc rs cur acc l : dagInv G d gc -> wrel choose cm d t rs cur acc l -> In cur d ->
  StronglySorted gtN rs -> (forall r, In r rs -> r < c_round cur) -> forall tl, acc = cur :: tl ->
  forall low rest, l = low :: rest -> path d cur low /\
   (low = cur \/ exists a, leader cm choose t (c_round low) = Some a /\ a_id a = c_origin low).
Proof.
  intros DI W. induction W as [cur acc|r rs cur acc p l H W IH|r rs cur acc l HL Hm W IH]; intros Hcur SS HR tl -> low rest El.
  - inversion El; subst. split; [apply p_refl|left; reflexivity].
  - inversion SS as [|? ? SS' F]; subst. rewrite Forall_forall in F.
    destruct H as (a & HA & HF & HK). pose proof (find_cert_Some _ _ _ _ HF) as (Hp & Hpr & Hpo).
    assert (PP : path d cur p).
    { apply linked_iff in HK as (z & PZ & EZ).
      - destruct (path_end _ _ _ PZ) as [<-|Hz].
        + exfalso. unfold cert_eqb in EZ. repeat rewrite andb_true_iff in EZ. destruct EZ as [[[_ EZ] _] _].
          apply N.eqb_eq in EZ. pose proof (HR r (or_introl eq_refl)). lia.
        + apply (cert_eqb_header cm G ok d gc d gc p z DI DI Hp Hz) in EZ.
          assert (p = z) by (apply (uniq_header G d gc); assumption). subst z. exact PZ.
      - pose proof (HR r (or_introl eq_refl)). lia. }
    destruct (IH Hp SS') with (tl := cur :: tl) (low := low) (rest := rest) as [P1 P2]; try reflexivity; try assumption.
    { intros r' Hr'. specialize (F r' Hr'). unfold gtN in F. lia. }
    split; [eapply path_trans; eassumption|]. destruct P2 as [->|P2]; [|right; exact P2].
    right. exists a. rewrite Hpr. split; [assumption|symmetry; assumption].
  - inversion SS as [|? ? SS' F]; subst. apply (IH Hcur SS') with (tl := tl) (rest := rest); try reflexivity; try assumption.
    intros r' Hr'. apply HR. right. assumption.
Qed.

Lemma path_hpath d gc x y : dagInv G d gc -> path d x y -> hpath G (c_header x) (c_header y).
Proof.
  intros DI P. induction P as [x|x y z Hy Hr Hd P IH]; [apply hp_refl|].
  eapply hp_step; [apply DI; exact Hy|split; [exact Hr|exact Hd]|exact IH].
Qed.

Lemma commit_support chain : justified chain -> forall k d, nth_error chain k = Some d ->
  exists t X, chain_table fsqrt cm pct (firstn k chain) = Some t /\
    (exists a, leader cm choose t (sd_round d) = Some a /\ a_id a = h_author (sd_leader d)) /\
    G X /\ sd_round d <= h_round X /\ h_round X mod 2 = 0 /\
    (exists a, leader cm choose t (h_round X) = Some a /\ a_id a = h_author X) /\
    hpath G X (sd_leader d) /\
    exists Q, NoDup (map h_author Q) /\ cm_validity cm <= group_power cm (map h_author Q) /\
      forall q, In q Q -> G q /\ refers q X.
Proof.
  intros J k d N.
  destruct (justified_nth fsqrt choose fold_seed legacy_rand epoch_root seed_active cm gc_depth num pct G sqrt0 pct_ok choose_in depth_ok chain J k d N)
    as (s & X & L & s' & I & C).
  destruct (commit_certs _ _ _ _ _ _ I C) as (R & F1 & FL & HL & HLX & Hc & _ & HRE & HR).
  destruct C as ((HX & HXe & HXc & (a & HA & HO) & SUP) & (rest & W) & _).
  pose proof (i_dag _ _ _ _ _ _ _ _ I) as DI.
  pose proof (even_committed _ _ _ _ _ _ _ _ I) as EV.
  destruct (wrel_low (b_dag s) (b_table s) (b_gc s) _ X [X] (L :: rest) DI W HX (step_rounds_sorted _ _)) with (tl := @nil cert) (low := L) (rest := rest)
    as [P1 P2]; try reflexivity.
  { intros r Hr. apply step_rounds_In in Hr; lia. }
  exists (b_table s), (c_header X). split; [apply (i_table _ _ _ _ _ _ _ _ I)|].
  assert (SR : sd_round d = c_round L) by (unfold sd_round; rewrite FL; reflexivity). rewrite SR, FL.
  split. { destruct P2 as [->|P2]; [exists a; auto|exact P2]. }
  split; [apply DI; exact HX|]. split; [exact HLX|]. split; [exact HXe|].
  split; [exists a; auto|]. split; [eapply path_hpath; eassumption|].
  exists (map c_header (supporters (b_dag s) (c_round X + 1) (c_digest X))). rewrite map_map.
  split; [eapply supporters_NoDup; eassumption|]. split; [exact SUP|].
  intros q Hq. apply in_map_iff in Hq as (y & <- & Hy). apply supporters_In in Hy as (Hy & Hyr & Hyp).
  split; [apply DI; assumption|]. split; [symmetry; exact Hyr|exact Hyp].
Qed.

(* C11 *)
Lemma commit_ts chain : justified chain -> forall k d, nth_error chain k = Some d ->
  sd_ts d = N.max (match chain_last (firstn k chain) with Some e => sd_ts e | None => 0 end) (h_created (sd_leader d)).
Proof.
  intros J k d N.
  destruct (justified_nth fsqrt choose fold_seed legacy_rand epoch_root seed_active cm gc_depth num pct G sqrt0 pct_ok choose_in depth_ok chain J k d N)
    as (s & X & L & s' & I & C).
  destruct (cstep_facts fsqrt choose fold_seed legacy_rand epoch_root seed_active cm gc_depth num pct G
    wf ok sqrt0 pct_ok choose_in s _ X L s' d I C) as (R & _ & _ & _ & _ & _ & _ & _ & F & _ & F5).
  rewrite F5. exact F.
Qed.
Lemma chain_last_firstn (c : list subdag) k d : nth_error c k = Some d -> chain_last (firstn (S k) c) = Some d.
Proof.
  intros H. assert (X : firstn (S k) c = firstn k c ++ [d]).
  { revert k d H. induction c as [|a c IH]; intros k d H; [destruct k; discriminate|].
    destruct k as [|k]; [inversion H; reflexivity|]. cbn [firstn app]. f_equal. apply IH. exact H. }
  rewrite X. apply chain_last_app.
Qed.
Lemma commit_ts_mono chain : justified chain -> forall i j d e, (i < j)%nat -> nth_error chain i = Some d -> nth_error chain j = Some e ->
  sd_ts d <= sd_ts e.
Proof.
  intros J i j d e L Ni. revert e. induction L as [|j L IH]; intros e Nj.
  - rewrite (commit_ts chain J (S i) e Nj), (chain_last_firstn _ _ _ Ni). lia.
  - destruct (nth_error chain j) as [m|] eqn:Nm.
    + specialize (IH m eq_refl). rewrite (commit_ts chain J (S j) e Nj), (chain_last_firstn _ _ _ Nm). lia.
    + apply nth_error_None in Nm. assert (S j < length chain)%nat by (apply nth_error_Some; congruence). lia.
Qed.

(* C15 *)
Lemma score_add sc id v a : bm_sorted (sc_map sc) -> score_of (add_score sc id v) a = score_of sc a + (if a =? id then v else 0).
Proof.
  intros S. unfold add_score, score_of. destruct (bm_lookup id (sc_map sc)) as [w|] eqn:E; cbn [sc_map];
    rewrite bm_lookup_insert by assumption; destruct (N.eqb_spec a id) as [->|Ne]; try rewrite E; lia.
Qed.
Lemma score_supporters prev a seq : forall sc, bm_sorted (sc_map sc) ->
  score_of (add_supporters prev seq sc) a = score_of sc a +
  N.of_nat (length (filter (fun h => (h_author h =? a) && (h_round h =? sd_round prev + 1) &&
                                     memN (h_digest (sd_leader prev)) (h_parents h)) (map c_header seq))).
Proof.
  unfold add_supporters. induction seq as [|x seq IH]; intros sc S; cbn [fold_left map filter]; [cbn [length]; lia|].
  assert (S' : bm_sorted (sc_map (if (c_round x =? sd_round prev + 1) && memN (h_digest (sd_leader prev)) (c_parents x)
               then add_score sc (c_origin x) 1 else sc))).
  { destruct (_ && _); [|exact S]. unfold add_score. destruct (bm_lookup _ _); apply bm_insert_sorted; exact S. }
  rewrite IH by exact S'. fold (c_round x) (c_parents x) (c_origin x). rewrite <- andb_assoc.
  destruct ((c_round x =? sd_round prev + 1) && memN (h_digest (sd_leader prev)) (c_parents x)).
  - rewrite score_add by exact S. rewrite andb_true_r. rewrite (N.eqb_sym a (c_origin x)).
    destruct (c_origin x =? a); cbn [length]; lia.
  - rewrite andb_false_r. reflexivity.
Qed.
Lemma score_new a : score_of (scores_new cm) a = 0.
Proof.
  unfold score_of, scores_new. cbn [sc_map]. destruct (bm_lookup a _) as [v|] eqn:E; [|reflexivity].
  apply bm_lookup_In in E; [|apply bm_of_list_sorted].
  assert (X : forall l m, (forall k v, In (k, v) l -> v = 0) -> (forall k v, In (k, v) m -> v = 0) ->
     forall k v, In (k, v) (fold_left (fun m e => bm_insert (fst e) (snd e) m) l m) -> v = 0).
  { clear. induction l as [|[k0 v0] l IH]; intros m Hl Hm k v H; [eapply Hm; exact H|]. cbn [fold_left fst snd] in H.
    eapply IH; [| |exact H].
    - intros k' v' H'. apply (Hl k' v'). right. assumption.
    - intros k' v' H'. assert (Z : forall m, In (k', v') (bm_insert k0 v0 m) -> (k' = k0 /\ v' = v0) \/ In (k', v') m).
      { clear. induction m as [|[k1 v1] m IH]; cbn [bm_insert]; [intros [E|[]]; inversion E; auto|].
        destruct (k0 <? k1); [intros [E|E]; [inversion E; auto|auto]|].
        destruct (k0 =? k1); intros [E|E]; try (inversion E; subst; auto; fail); [right; right; assumption|right; left; assumption|].
        destruct (IH E) as [Q|Q]; [auto|right; right; assumption]. }
      destruct (Z m H') as [[-> ->]|Q]; [apply (Hl k0 v0); left; reflexivity|eapply Hm; exact Q]. }
  unfold bm_of_list in E. eapply X; [| |exact E].
  - intros k v' H. apply in_map_iff in H as (x & Ex & _). inversion Ex. reflexivity.
  - intros ? ? [].
Qed.

Lemma commit_scores chain : justified chain -> forall k d, nth_error chain k = Some d -> forall a,
  score_of (sd_scores d) a =
  match chain_last (firstn k chain) with
  | None => 0
  | Some p => (if nonce (h_epoch (sd_leader d)) (sd_round d) / 2 mod num =? 0 then 0 else score_of (sd_scores p) a) + credits p d a
  end /\
  sc_final (sd_scores d) = ((nonce (h_epoch (sd_leader d)) (sd_round d) / 2 + 1) mod num =? 0).
Proof.
  intros J k d N a.
  destruct (justified_nth fsqrt choose fold_seed legacy_rand epoch_root seed_active cm gc_depth num pct G sqrt0 pct_ok choose_in depth_ok chain J k d N)
    as (s & X & L & s' & I & C).
  destruct (cstep_facts fsqrt choose fold_seed legacy_rand epoch_root seed_active cm gc_depth num pct G
    wf ok sqrt0 pct_ok choose_in s _ X L s' d I C) as (R & _ & _ & _ & _ & _ & F1 & F2 & _ & _ & F5).
  unfold sd_round. rewrite F5. change (nonce (h_epoch (c_header L)) (h_round (c_header L))) with (c_nonce L).
  unfold resolve_scores in F2.
  assert (KS : forall p, chain_last (firstn k chain) = Some p -> bm_sorted (sc_map (sd_scores p))).
  { intros p Ep. unfold chain_last in Ep. destruct (rev (firstn k chain)) as [|e t] eqn:E; [discriminate|]. inversion Ep; subst e.
    pose proof (i_shape _ _ _ _ _ _ _ _ I) as FS. rewrite Forall_forall in FS. apply FS.
    apply in_rev. rewrite E. left. reflexivity. }
  assert (KN : bm_sorted (sc_map (scores_new cm))) by apply bm_of_list_sorted.
  destruct (chain_last (firstn k chain)) as [p|] eqn:EL.
  - specialize (KS p eq_refl).
    match type of F2 with (if ?b then _ else _) = _ => destruct b; [|discriminate] end. inversion F2 as [F3].
    cbn [sc_final]. split; [|reflexivity].
    unfold score_of at 1. cbn [sc_map]. fold (score_of (add_supporters p (sort_by_round R) (if c_nonce L / 2 mod num =? 0 then scores_new cm else sd_scores p)) a).
    rewrite score_supporters by (destruct (_ =? 0); assumption). unfold credits. rewrite F1.
    destruct (c_nonce L / 2 mod num =? 0); [rewrite score_new|]; reflexivity.
  - match type of F2 with (if ?b then _ else _) = _ => destruct b; [|discriminate] end. inversion F2 as [F3].
    cbn [sc_final]. split; [|reflexivity].
    unfold score_of at 1. cbn [sc_map]. destruct (c_nonce L / 2 mod num =? 0); apply score_new.
Qed.

(* C16 *)
Lemma commit_rand (act : forall h, G h -> seed_active (h_epoch h) = true) chain : justified chain ->
  chain_seed epoch_root cm chain =
  fold_left (fun v d => fold_seed v (sd_round d) (h_seed (sd_leader d))) chain (epoch_root (cm_epoch cm)).
Proof.
  intros J. induction J as [|chain d s X L s' J IH I C]; [reflexivity|].
  rewrite fold_left_app. cbn [fold_left]. rewrite <- IH. unfold chain_seed at 1. rewrite chain_last_app.
  destruct (cstep_facts fsqrt choose fold_seed legacy_rand epoch_root seed_active cm gc_depth num pct G
    wf ok sqrt0 pct_ok choose_in s _ X L s' d I C) as (R & HL & _ & _ & _ & _ & _ & _ & _ & F4 & F5).
  pose proof (act _ (di_G _ _ _ (i_dag _ _ _ _ _ _ _ _ I) _ HL)) as T. change (seed_active (c_epoch L) = true) in T.
  rewrite F4, T. unfold sd_round. rewrite F5. reflexivity.
Qed.
End Facts.
