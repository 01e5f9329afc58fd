From Verif Require Import Util Types CommitteeModel CommitteeProofs CertModel LeaderModel LeaderProofs GasModel BullModel BullSpec BullProofs1 BullProofs2 BullProofs3 BullProofs4 BullProofs5.
Local Open Scope N_scope.

(* ---------- lists ---------- *)
Lemma SS_snoc {A} (R : A -> A -> Prop) l x : StronglySorted R l -> (forall y, In y l -> R y x) -> StronglySorted R (l ++ [x]).
Proof.
  induction 1 as [|a l S IH F]; intros H; cbn [app]; [constructor; constructor|].
  constructor; [apply IH; intros; apply H; right; assumption|]. apply Forall_app. split; [assumption|].
  constructor; [apply H; left; reflexivity|constructor].
Qed.
Lemma SS_rev {A} (R : A -> A -> Prop) l : StronglySorted R l -> StronglySorted (fun a b => R b a) (rev l).
Proof.
  induction 1 as [|a l S IH F]; cbn [rev]; [constructor|]. apply SS_snoc; [exact IH|].
  intros y Hy. apply in_rev in Hy. rewrite Forall_forall in F. apply F. assumption.
Qed.
Lemma SS_app_inv {A} (R : A -> A -> Prop) l1 l2 : StronglySorted R (l1 ++ l2) ->
  StronglySorted R l1 /\ StronglySorted R l2 /\ forall x y, In x l1 -> In y l2 -> R x y.
Proof.
  induction l1 as [|a l1 IH]; cbn [app]; intros S.
  - split; [constructor|]. split; [assumption|]. intros ? ? [].
  - inversion S as [|? ? S' F]; subst. destruct (IH S') as (A1 & A2 & A3). rewrite Forall_forall in F.
    split; [constructor; [assumption|]|]. { apply Forall_forall. intros x Hx. apply F. apply in_or_app. auto. }
    split; [assumption|]. intros x y [<-|Hx] Hy; [apply F; apply in_or_app; auto|apply A3; assumption].
Qed.
Lemma maxN_incl l1 l2 : (forall x, In x l1 -> In x l2) -> maxN l1 <= maxN l2.
Proof. intros H. apply maxN_le. intros x Hx. apply maxN_ge. apply H. assumption. Qed.
Lemma maxN_same l1 l2 : (forall x, In x l1 <-> In x l2) -> maxN l1 = maxN l2.
Proof. intros H. apply N.le_antisymm; apply maxN_incl; intros; apply H; assumption. Qed.
Lemma hrounds_In a l r : In r (hrounds_by a l) <-> exists h, In h l /\ h_author h = a /\ h_round h = r.
Proof.
  unfold hrounds_by. rewrite in_map_iff. split.
  - intros (h & E & H). apply filter_In in H as [H Ha]. apply N.eqb_eq in Ha. exists h. auto.
  - intros (h & H & Ha & E). exists h. split; [assumption|]. apply filter_In. rewrite Ha, N.eqb_refl. auto.
Qed.

(* ---------- the recovered watermarks ---------- *)
Lemma bump_spec m b r : bm_sorted m -> bm_sorted (bump m b r) /\
  forall a, wm (bump m b r) a = if a =? b then N.max (wm m b) r else wm m a.
Proof.
  intros S. unfold bump. split; [apply bm_insert_sorted; assumption|]. intros a. apply wm_insert. assumption.
Qed.
Lemma bumps_spec hs : forall m, bm_sorted m ->
  bm_sorted (fold_left (fun m h => bump m (h_author h) (h_round h)) hs m) /\
  forall a, wm (fold_left (fun m h => bump m (h_author h) (h_round h)) hs m) a = N.max (wm m a) (maxN (hrounds_by a hs)).
Proof.
  induction hs as [|h hs IH]; intros m S; cbn [fold_left].
  - split; [assumption|]. intros a. change (maxN (hrounds_by a [])) with 0. lia.
  - destruct (bump_spec m (h_author h) (h_round h) S) as [S1 W1]. destruct (IH _ S1) as [S2 W2].
    split; [assumption|]. intros a. rewrite W2, W1. unfold hrounds_by. cbn [filter].
    destruct (N.eqb_spec a (h_author h)) as [->|Ne].
    + rewrite N.eqb_refl. cbn [map]. change (maxN (h_round h :: ?l)) with (N.max (h_round h) (maxN l)). lia.
    + destruct (N.eqb_spec (h_author h) a); [congruence|]. reflexivity.
Qed.
Definition last_of (ds : list subdag) (m : bmap N) : bmap N :=
  fold_left (fun m d => fold_left (fun m h => bump m (h_author h) (h_round h)) (sd_headers d)
                                  (bump m (h_author (sd_leader d)) (sd_round d))) ds m.
Lemma last_of_spec ds : (forall d, In d ds -> In (sd_leader d) (sd_headers d)) -> forall m, bm_sorted m ->
  bm_sorted (last_of ds m) /\
  forall a, wm (last_of ds m) a = N.max (wm m a) (maxN (hrounds_by a (flat_map sd_headers ds))).
Proof.
  induction ds as [|d ds IH]; intros HL m S; unfold last_of; cbn [fold_left].
  - split; [assumption|]. intros a. change (maxN (hrounds_by a (flat_map sd_headers []))) with 0. lia.
  - destruct (bump_spec m (h_author (sd_leader d)) (sd_round d) S) as [S1 W1].
    destruct (bumps_spec (sd_headers d) _ S1) as [S2 W2].
    destruct (IH (fun e He => HL e (or_intror He)) _ S2) as [S3 W3]. fold (last_of ds) in *.
    split; [exact S3|]. intros a. unfold last_of in W3. rewrite W3, W2, W1. cbn [flat_map].
    assert (HA : maxN (hrounds_by a (sd_headers d ++ flat_map sd_headers ds)) =
      N.max (maxN (hrounds_by a (sd_headers d))) (maxN (hrounds_by a (flat_map sd_headers ds)))).
    { unfold hrounds_by. rewrite filter_app, map_app, maxN_app. reflexivity. }
    rewrite HA. destruct (N.eqb_spec a (h_author (sd_leader d))) as [->|Ne]; [|lia].
    assert (sd_round d <= maxN (hrounds_by (h_author (sd_leader d)) (sd_headers d))); [|lia].
    apply maxN_ge. apply hrounds_In. exists (sd_leader d). split; [apply HL; left; reflexivity|auto].
Qed.
Lemma maxN_wm m B : bm_sorted m -> (forall a, wm m a <= B) -> maxN (map snd m) <= B.
Proof.
  intros S H. apply maxN_le. intros r Hr. apply in_map_iff in Hr as ([a r'] & E & Hin). cbn in E. subst r'.
  specialize (H a). unfold wm in H. rewrite (proj2 (bm_lookup_In a r m S) Hin) in H. exact H.
Qed.
Lemma wm_maxN m a : bm_sorted m -> wm m a <= maxN (map snd m).
Proof.
  intros S. unfold wm. destruct (bm_lookup a m) as [r|] eqn:E; [|lia]. apply bm_lookup_In in E; [|assumption].
  apply maxN_ge. apply in_map_iff. exists (a, r). auto.
Qed.

Section Rec.
Variable fsqrt : N -> N.
Variable choose : list authority -> N -> option authority.
Variable fold_seed : N -> N -> N -> N.
Variable legacy_rand : N -> N.
Variable epoch_root : N -> N.
Variable seed_active : N -> bool.
Variable cm : committee.
Variables gc_depth num pct : N.
Variable G : header -> Prop.
Hypothesis wf : committee_wf cm.
Hypothesis ok : dag_ok cm G.
Hypothesis sqrt0 : fsqrt 0 = 0.
Hypothesis pct_ok : pct <= 33.
Hypothesis choose_in : forall l r, l <> [] -> exists a, choose l r = Some a /\ In a l.
Hypothesis depth_ok : gc_depth <= 100.

Notation Inv := (Inv fsqrt epoch_root cm gc_depth pct G).
Notation recover := (recover fsqrt epoch_root cm gc_depth pct).
Notation cstep := (cstep fsqrt choose fold_seed legacy_rand seed_active cm gc_depth num pct).
Notation msteps := (msteps fsqrt choose fold_seed legacy_rand epoch_root seed_active cm gc_depth num pct G).
Notation new_certificate := (new_certificate fsqrt choose fold_seed legacy_rand seed_active cm gc_depth num pct).
Notation reach := (reach fsqrt choose fold_seed legacy_rand epoch_root seed_active cm gc_depth num pct G).

Lemma shape_leader d : shape cm d -> In (sd_leader d) (sd_headers d).
Proof.
  intros S. destruct (sh_last _ _ S) as (pre & l & E & _). unfold sd_leader. rewrite E, last_last.
  apply in_or_app. right. left. reflexivity.
Qed.

Lemma rounds_gap W : forall O d, StronglySorted (fun a b => sd_round b + 2 <= sd_round a) (W ++ O) -> In d O -> forall w W',
  W = w :: W' -> sd_round d + 2 * N.of_nat (length W) <= sd_round w.
Proof.
  induction W as [|w W IH]; intros O d S Hd w0 W' E; [discriminate|]. inversion E; subst w0 W'.
  cbn [app] in S. inversion S as [|? ? S' F]; subst. rewrite Forall_forall in F.
  destruct W as [|w1 W1].
  - cbn [length]. specialize (F d (in_or_app _ _ _ (or_intror Hd))). lia.
  - specialize (IH O d S' Hd w1 W1 eq_refl). specialize (F w1 (or_introl eq_refl)). cbn [length] in *. lia.
Qed.

Lemma gap_sorted chain : Forall (shape cm) chain -> StronglySorted rounds_up chain ->
  StronglySorted (fun a b => sd_round b + 2 <= sd_round a) (rev chain).
Proof.
  intros F U. apply (SS_rev (fun a b => sd_round a + 2 <= sd_round b)).
  induction U as [|d l U IH H]; [constructor|]. inversion F as [|? ? F1 F2]; subst. constructor; [apply IH; assumption|].
  rewrite Forall_forall in *. intros e He. specialize (H e He). unfold rounds_up in H.
  pose proof (sh_even _ _ F1). pose proof (sh_even _ _ (F2 e He)). lia.
Qed.

(* recovery reads back the watermarks that matter *)
Lemma recovered_wm chain : Forall (shape cm) chain -> StronglySorted rounds_up chain ->
  bm_sorted (read_last_committed chain) /\
  maxN (map snd (read_last_committed chain)) = chain_round chain /\
  forall a, N.max (wm (read_last_committed chain) a) (chain_round chain - gc_depth) =
            N.max (chain_wm chain a) (chain_round chain - gc_depth).
Proof.
  intros F U. pose proof (gap_sorted chain F U) as GS. rewrite Forall_forall in F.
  change (read_last_committed chain) with (last_of (firstn LAST_COMMITTED_WINDOW (rev chain)) []).
  set (W := firstn LAST_COMMITTED_WINDOW (rev chain)). set (O := skipn LAST_COMMITTED_WINDOW (rev chain)).
  assert (EWO : rev chain = W ++ O) by (symmetry; apply firstn_skipn).
  assert (HW : forall d, In d W -> In d chain).
  { intros d Hd. apply in_rev. rewrite EWO. apply in_or_app. auto. }
  assert (HO : forall d, In d O -> In d chain).
  { intros d Hd. apply in_rev. rewrite EWO. apply in_or_app. auto. }
  destruct (last_of_spec W (fun d Hd => shape_leader d (F d (HW d Hd))) [] ltac:(constructor)) as [SL WL].
  assert (WL' : forall a, wm (last_of W []) a = maxN (hrounds_by a (flat_map sd_headers W))).
  { intros a. rewrite WL. change (wm [] a) with 0. lia. }
  assert (TOP : forall d, In d chain -> sd_round d <= chain_round chain).
  { intros d Hd. apply in_rev in Hd. unfold chain_round. destruct (rev chain) as [|e t] eqn:E; [contradiction|].
    inversion GS as [|? ? _ FF]; subst. rewrite Forall_forall in FF. destruct Hd as [<-|Hd]; [lia|].
    specialize (FF d Hd). lia. }
  assert (HB : forall a, wm (last_of W []) a <= chain_round chain).
  { intros a. rewrite WL'. apply maxN_le. intros r Hr. apply hrounds_In in Hr as (h & Hh & _ & <-).
    apply in_flat_map in Hh as (d & Hd & Hh). pose proof (shape_rounds cm d h (F d (HW d Hd)) Hh).
    pose proof (TOP d (HW d Hd)). lia. }
  split; [exact SL|]. split.
  { apply N.le_antisymm; [apply maxN_wm; assumption|]. unfold chain_round.
    destruct (rev chain) as [|e t] eqn:E; [lia|].
    assert (He : In e W) by (unfold W; rewrite ?E; left; reflexivity).
    pose proof (wm_maxN (last_of W []) (h_author (sd_leader e)) SL) as X. rewrite WL' in X.
    assert (sd_round e <= maxN (hrounds_by (h_author (sd_leader e)) (flat_map sd_headers W))); [|lia].
    apply maxN_ge. apply hrounds_In. exists (sd_leader e). split; [|auto].
    apply in_flat_map. exists e. split; [assumption|]. apply shape_leader. apply F. apply HW. assumption. }
  intros a. rewrite WL'. unfold chain_wm.
  assert (LE : maxN (hrounds_by a (flat_map sd_headers W)) <= maxN (hrounds_by a (flat_map sd_headers chain))).
  { apply maxN_incl. intros r Hr. apply hrounds_In in Hr as (h & Hh & Ha & Er). apply hrounds_In. exists h.
    split; [|auto]. apply in_flat_map in Hh as (d & Hd & Hh). apply in_flat_map. exists d. auto. }
  assert (GE : maxN (hrounds_by a (flat_map sd_headers chain)) <=
               N.max (maxN (hrounds_by a (flat_map sd_headers W))) (chain_round chain - gc_depth)); [|lia].
  apply maxN_le. intros r Hr. apply hrounds_In in Hr as (h & Hh & Ha & <-). apply in_flat_map in Hh as (d & Hd & Hh).
  pose proof Hd as Hd'. apply in_rev in Hd'. rewrite EWO in Hd'. apply in_app_or in Hd' as [Hd'|Hd'].
  - assert (h_round h <= maxN (hrounds_by a (flat_map sd_headers W))); [|lia].
    apply maxN_ge. apply hrounds_In. exists h. split; [|auto]. apply in_flat_map. exists d. auto.
  - pose proof (shape_rounds cm d h (F d Hd) Hh) as HR.
    assert (LW : length W = LAST_COMMITTED_WINDOW).
    { unfold W. rewrite firstn_length. unfold O in Hd'.
      destruct (Nat.le_gt_cases (length (rev chain)) LAST_COMMITTED_WINDOW) as [Q|Q]; [|lia].
      rewrite skipn_all2 in Hd' by assumption. contradiction. }
    destruct W as [|w W1] eqn:EW; [discriminate LW|].
    rewrite EWO in GS. pose proof (rounds_gap _ _ d GS Hd' w W1 eq_refl) as GAP. rewrite LW in GAP.
    assert (chain_round chain = sd_round w) by (unfold chain_round; rewrite EWO; reflexivity).
    unfold LAST_COMMITTED_WINDOW in GAP. lia.
Qed.

(* ---------- the restored dag ---------- *)
Lemma restore_facts certs last gc : forall d,
  (forall x, In x certs -> G (c_header x)) ->
  (forall x, In x d -> G (c_header x) /\ gc < c_round x) -> NoDup (map (fun x => (c_round x, c_origin x)) d) ->
  exists d', restore_dag d last gc certs = Some d' /\
    (forall x, In x d' -> (In x d \/ In x certs) /\ gc < c_round x) /\
    NoDup (map (fun x => (c_round x, c_origin x)) d') /\
    (forall x, In x d \/ (In x certs /\ gc < c_round x) -> exists z, In z d' /\ c_header z = c_header x).
Proof.
  induction certs as [|x certs IH]; intros d HG HD ND; cbn [restore_dag].
  - exists d. split; [reflexivity|]. split; [intros y Hy; split; [auto|apply HD; assumption]|]. split; [assumption|].
    intros y [Hy|[[] _]]. exists y. auto.
  - assert (HG' : forall y, In y certs -> G (c_header y)) by (intros; apply HG; right; assumption).
    unfold try_insert_in_dag. destruct (N.leb_spec (c_round x) gc) as [L|L].
    { destruct (IH d HG' HD ND) as (d' & E & A & B & C). exists d'. split; [exact E|].
      split; [intros y Hy; destruct (A y Hy) as [Q1 Q2]; split; [destruct Q1; [left|right; right]; assumption|assumption]|]. split; [assumption|].
      intros y [Hy|[[<-|Hy] Hr]]; [apply C; auto|lia|apply C; auto]. }
    assert (EQ : (match find_cert d (c_round x) (c_origin x) with
       | Some y => if c_digest y =? c_digest x then Ok (dag_insert x d, wm last (c_origin x) <? c_round x) else Err EEquivocation
       | None => Ok (dag_insert x d, wm last (c_origin x) <? c_round x) end : result (dag * bool) berr) = Ok (dag_insert x d, wm last (c_origin x) <? c_round x)).
    { destruct (find_cert d (c_round x) (c_origin x)) as [y|] eqn:F; [|reflexivity].
      apply find_cert_Some in F as (Hy & Hr & Ho).
      assert (E : c_header y = c_header x).
      { apply (d_noeq _ _ ok); [apply HD; assumption|apply HG; left; reflexivity|exact Hr|exact Ho]. }
      rewrite (hdigest _ _ E), N.eqb_refl. reflexivity. }
    rewrite EQ. clear EQ.
    destruct (IH (dag_insert x d) HG') as (d' & E & A & B & C).
    { intros y Hy. apply dag_insert_In in Hy as [->|[Hy _]]; [split; [apply HG; left; reflexivity|assumption]|apply HD; assumption]. }
    { unfold dag_insert. cbn [map]. constructor.
      + intros H. apply in_map_iff in H as (y & E & Hy). apply filter_In in Hy as [_ Hy]. inversion E as [[E1 E2]].
        rewrite (proj2 (same_slot_iff x y)) in Hy; [discriminate|auto].
      + clear - ND. induction d as [|a d IH]; [constructor|]. cbn [map] in ND.
        inversion ND as [|? ? Hn U']; subst. cbn [filter]. destruct (negb _); [|apply IH; assumption].
        cbn [map]. constructor; [|apply IH; assumption]. intros H. apply Hn.
        apply in_map_iff in H as (y & E & Hy). apply filter_In in Hy as [Hy _]. apply in_map_iff. exists y. auto. }
    exists d'. split; [exact E|]. split.
    { intros y Hy. destruct (A y Hy) as [[H|H] Hr]; (split; [|assumption]).
      - apply dag_insert_In in H as [->|[H _]]; [right; left; reflexivity|left; assumption].
      - right. right. assumption. }
    split; [assumption|].
    intros y Hy.
    assert (Z : (exists z, In z (dag_insert x d) /\ c_header z = c_header y) \/ (In y certs /\ gc < c_round y)).
    { destruct Hy as [Hy|[[<-|Hy] Hr]]; [|left; exists x; split; [apply dag_insert_In; auto|reflexivity]|right; auto].
      left. destruct (same_slot x y) eqn:ES.
      - apply same_slot_iff in ES as [E1 E2]. exists x. split; [apply dag_insert_In; auto|].
        apply (d_noeq _ _ ok); [apply HG; left; reflexivity|apply HD; assumption|exact E1|exact E2].
      - exists y. split; [apply dag_insert_In; auto|reflexivity]. }
    destruct Z as [(z & Hz & Ez)|Hz].
    + destruct (C z (or_introl Hz)) as (w & Hw & Ew). exists w. split; [assumption|congruence].
    + apply C. right. assumption.
Qed.

Lemma restored_inv certs last gc : store_ok G gc certs -> exists d, restore_dag [] last gc certs = Some d /\ dagInv G d gc.
Proof.
  intros [HG HC]. destruct (restore_facts certs last gc [] HG) as (d & E & A & B & C); [intros ? []|constructor|].
  exists d. split; [exact E|]. constructor.
  - intros x Hx. destruct (A x Hx) as [[[]|H] _]. apply HG. assumption.
  - exact B.
  - intros x Hx. apply (A x Hx).
  - intros x Hx Hg p Hp. destruct (A x Hx) as [[[]|H] _]. destruct (HC x H Hg p Hp) as (y & Hy & Hr & Hd).
    destruct (C y) as (z & Hz & Ez). { right. split; [assumption|lia]. }
    exists z. split; [assumption|]. rewrite (hround _ _ Ez), (hdigest _ _ Ez). auto.
Qed.

(* ---------- recovery succeeds and re-establishes the invariant ---------- *)
Lemma recover_ok chain certs : Forall (shape cm) chain -> StronglySorted rounds_up chain ->
  store_ok G (chain_round chain - gc_depth) certs -> final_in_window chain ->
  exists s, recover chain certs = Some s /\ Inv s chain.
Proof.
  intros F U ST FW. destruct (recovered_wm chain F U) as (SL & MX & WM).
  unfold BullModel.recover. rewrite MX. unfold gc_round.
  destruct (restored_inv certs (read_last_committed chain) _ ST) as (d & ED & DI). rewrite ED.
  assert (TB : recover_table fsqrt cm pct chain = chain_table fsqrt cm pct chain).
  { unfold recover_table, read_latest_final, chain_table. rewrite FW. reflexivity. }
  assert (TT : exists t, chain_table fsqrt cm pct chain = Some t).
  { unfold chain_table. destruct (find (fun d => sc_final (sd_scores d)) (rev chain)) as [e|] eqn:FE; [|eexists; reflexivity].
    apply find_some in FE as [FE EF]. apply in_rev in FE. rewrite Forall_forall in F.
    destruct (sh_scores _ _ (F e FE)) as [K1 K2].
    destruct (table_new_spec cm wf fsqrt (sd_round e) (sd_scores e) pct sqrt0 K1 K2 EF pct_ok) as (t & Et & _). eauto. }
  destruct TT as (t & Et). rewrite TB, Et.
  assert (AN : resolve_anchor epoch_root (match rev chain with [] => None | d :: _ => Some d end) (chain_round chain) (cm_epoch cm)
     = Ok (chain_seed epoch_root cm chain)).
  { unfold resolve_anchor, chain_round, chain_seed, chain_last. destruct (rev chain) as [|e r] eqn:E; [reflexivity|].
    assert (He : In e chain) by (apply in_rev; rewrite E; left; reflexivity).
    rewrite Forall_forall in F. pose proof (sh_pos _ _ (F e He)).
    destruct (N.ltb_spec 0 (sd_round e)); [|lia]. rewrite N.eqb_refl. reflexivity. }
  rewrite AN. eexists. split; [reflexivity|].
  constructor; cbn [b_committed b_gc b_last b_sub b_dag b_seed b_table]; try assumption; try reflexivity.
Qed.

(* ---------- every reachable chain is justified commit by commit ---------- *)
Inductive justified : list subdag -> Prop :=
| j_nil : justified []
| j_snoc chain sd s X L s' : justified chain -> Inv s chain -> cstep s X L s' sd -> justified (chain ++ [sd]).

Lemma justified_msteps s chain ds s' : msteps s chain ds s' -> justified chain -> justified (chain ++ ds).
Proof.
  intros M. induction M as [s chain|s chain X L s1 sd ds s' I C M IH]; intros J; [rewrite app_nil_r; exact J|].
  replace (chain ++ sd :: ds) with ((chain ++ [sd]) ++ ds) by (rewrite <- app_assoc; reflexivity).
  apply IH. eapply j_snoc; eassumption.
Qed.
Lemma justified_firstn chain : justified chain -> forall k, justified (firstn k chain).
Proof.
  intros J. induction J as [|chain sd s X L s' J IH I C]; intros k; [rewrite firstn_nil; constructor|].
  destruct (Nat.le_gt_cases k (length chain)) as [Q|Q].
  - rewrite firstn_app. replace (k - length chain)%nat with O by lia. cbn [firstn]. rewrite app_nil_r. apply IH.
  - rewrite firstn_all2 by (rewrite app_length; cbn [length]; lia). eapply j_snoc; eassumption.
Qed.
Lemma justified_nth chain : justified chain -> forall k sd, nth_error chain k = Some sd ->
  exists s X L s', Inv s (firstn k chain) /\ cstep s X L s' sd.
Proof.
  intros J. induction J as [|chain d s X L s' J IH I C]; intros k sd Hk; [destruct k; discriminate|].
  destruct (Nat.lt_ge_cases k (length chain)) as [Q|Q].
  - rewrite nth_error_app1 in Hk by assumption. destruct (IH k sd Hk) as (s0 & X0 & L0 & s0' & I0 & C0).
    exists s0, X0, L0, s0'. split; [|assumption]. rewrite firstn_app. replace (k - length chain)%nat with O by lia.
    cbn [firstn]. rewrite app_nil_r. assumption.
  - rewrite nth_error_app2 in Hk by assumption. destruct (k - length chain)%nat as [|j] eqn:EJ; [|destruct j; discriminate].
    cbn in Hk. inversion Hk; subst d. exists s, X, L, s'. split; [|assumption].
    rewrite firstn_app, EJ. cbn [firstn]. rewrite app_nil_r, firstn_all2 by lia. assumption.
Qed.

Lemma firstn_Forall {A} (P : A -> Prop) k l : Forall P l -> Forall P (firstn k l).
Proof. intros H. rewrite <- (firstn_skipn k l) in H. apply Forall_app in H. apply H. Qed.
Lemma firstn_SS {A} (R : A -> A -> Prop) k l : StronglySorted R l -> StronglySorted R (firstn k l).
Proof. intros H. rewrite <- (firstn_skipn k l) in H. apply SS_app_inv in H. apply H. Qed.

Theorem reach_inv s chain : reach s chain -> Inv s chain /\ justified chain.
Proof.
  intros H. induction H as [certs s ST RC|s chain x s' ds H [I J] Gx E|s chain k certs s' H [I J] ST FW RC].
  - destruct (recover_ok [] certs) as (s0 & E0 & I0); [constructor|constructor|exact ST|reflexivity|].
    rewrite RC in E0. inversion E0; subst. split; [exact I0|constructor].
  - pose proof (new_certificate_spec fsqrt choose fold_seed legacy_rand epoch_root seed_active cm gc_depth num pct G
                  wf ok sqrt0 pct_ok choose_in s chain x I Gx) as N. rewrite E in N. destruct N as (s0 & I0 & M).
    split; [eapply msteps_inv; eassumption|eapply justified_msteps; eassumption].
  - destruct (recover_ok (firstn k chain) certs) as (s0 & E0 & I0).
    + apply firstn_Forall. apply I.
    + apply firstn_SS. apply I.
    + exact ST.
    + exact FW.
    + rewrite RC in E0. inversion E0; subst. split; [exact I0|apply justified_firstn; exact J].
Qed.
End Rec.
