From Verif Require Import Util Types CommitteeModel CommitteeProofs CertModel LeaderModel LeaderProofs GasModel BullModel BullSpec BullProofs1 BullProofs2 BullProofs3 BullProofs4.
Local Open Scope N_scope.

Lemma dag_insert_In x y d : In y (dag_insert x d) <-> y = x \/ (In y d /\ same_slot x y = false).
Proof.
  unfold dag_insert. cbn [In]. rewrite filter_In, negb_true_iff. intuition congruence.
Qed.
Lemma same_slot_iff x y : same_slot x y = true <-> c_round x = c_round y /\ c_origin x = c_origin y.
Proof. unfold same_slot. rewrite andb_true_iff, !N.eqb_eq. reflexivity. Qed.


Section Steps.
Variable fsqrt : N -> N.
Variable choose : list authority -> N -> option authority.
Variable fold_seed : N -> N -> N -> N.
Variable legacy_rand : N -> N.
Variable epoch_root : N -> N.
Variable seed_active : N -> bool.
Variable cm : committee.
Variables gc_depth num pct : N.
Variable G : header -> Prop.
Hypothesis wf : committee_wf cm.
Hypothesis ok : dag_ok cm G.
Hypothesis sqrt0 : fsqrt 0 = 0.
Hypothesis pct_ok : pct <= 33.
Hypothesis choose_in : forall l r, l <> [] -> exists a, choose l r = Some a /\ In a l.

Notation Inv := (Inv fsqrt epoch_root cm gc_depth pct G).
Notation commit_one := (commit_one fsqrt fold_seed legacy_rand seed_active cm gc_depth num pct).
Notation commit_all := (commit_all fsqrt fold_seed legacy_rand seed_active cm gc_depth num pct).
Notation commit_loop := (commit_loop fsqrt choose fold_seed legacy_rand seed_active cm gc_depth num pct).
Notation commit_leader := (commit_leader fsqrt choose fold_seed legacy_rand seed_active cm gc_depth num pct).
Notation process_certificate := (process_certificate fsqrt choose fold_seed legacy_rand seed_active cm gc_depth num pct).
Notation new_certificate := (new_certificate fsqrt choose fold_seed legacy_rand seed_active cm gc_depth num pct).
Notation wrel := (wrel choose cm).
Notation supported := (supported cm).
Notation leader := (leader cm choose).

(* ---------- the schedule always answers ---------- *)
Lemma table_leader t r : r mod 2 = 0 ->
  (forall a, In a (st_bad t) \/ In a (st_good t) -> In a (cm_authorities cm)) ->
  (st_bad t <> [] -> st_good t <> []) ->
  exists a, leader t r = Some a /\ In a (cm_authorities cm).
Proof.
  intros Hr HM HG. unfold LeaderModel.leader. rewrite (proj2 (N.eqb_eq _ _) Hr). cbn [negb].
  pose proof (wf_size cm wf). destruct (N.eqb_spec (cm_size cm) 0); [lia|].
  assert (LEN : N.of_nat (length (cm_authorities cm)) = cm_size cm).
  { rewrite <- (member_ids_length cm wf). unfold member_ids. rewrite map_length. reflexivity. }
  destruct (nth_error (cm_authorities cm) (N.to_nat ((r / 2 - 1) mod cm_size cm))) as [l|] eqn:E.
  2:{ apply nth_error_None in E. pose proof (N.mod_lt (r / 2 - 1) (cm_size cm)). lia. }
  apply nth_error_In in E. unfold swap. destruct (existsb _ _) eqn:EX; [|exists l; auto].
  apply existsb_exists in EX as (b & Hb & _). destruct (choose_in (st_good t) r) as (g & -> & Hg).
  { apply HG. intros X. rewrite X in Hb. contradiction. }
  exists g. split; [reflexivity|]. apply HM. auto.
Qed.

Lemma inv_leader s chain r : Inv s chain -> r mod 2 = 0 ->
  exists a, leader (b_table s) r = Some a /\ In a (cm_authorities cm).
Proof.
  intros I Hr. apply table_leader; [assumption| |]; pose proof (i_table _ _ _ _ _ _ _ _ I) as T;
    unfold chain_table in T; destruct (find (fun d => sc_final (sd_scores d)) (rev chain)) as [d|] eqn:F.
  1,3: apply find_some in F as [F EF]; apply in_rev in F;
    pose proof (i_shape _ _ _ _ _ _ _ _ I) as FS; rewrite Forall_forall in FS;
    destruct (sh_scores _ _ (FS d F)) as [K1 K2];
    destruct (table_new_spec cm wf fsqrt (sd_round d) (sd_scores d) pct sqrt0 K1 K2 EF pct_ok) as (t & Et & _ & _ & _ & H);
    rewrite Et in T; inversion T; subst t; destruct H as [[-> ->]|(ceil & floor & L & NE & B1 & B2 & _)].
  - intros a [[]|[]].
  - intros a [H|H]; [apply B1 in H|apply B2 in H]; tauto.
  - tauto.
  - intros _. exact NE.
  - inversion T as [T']. cbn. tauto.
  - inversion T as [T']. cbn. tauto.
Qed.

Lemma walk_total d t rs : (forall r, In r rs -> exists a, leader t r = Some a) -> forall cur acc,
  exists l, wrel d t rs cur acc l.
Proof.
  intros H. assert (X : forall cur acc, exists l, walk choose cm d t rs cur acc = Some l).
  { induction rs as [|r rs IH]; intros cur acc; [eexists; reflexivity|]. cbn [walk].
    destruct (H r (or_introl eq_refl)) as (a & Ea). rewrite Ea.
    assert (IH' : forall cur acc, exists l, walk choose cm d t rs cur acc = Some l) by (apply IH; intros; apply H; right; assumption).
    destruct (find_cert d r (a_id a)); [|apply IH']. destruct (linked d cur c); apply IH'. }
  intros cur acc. destruct (X cur acc) as (l & E). exists l. apply walk_wrel. exact E.
Qed.

(* ---------- one commit ---------- *)
Definition anchored (s : bstate) (X : cert) : Prop :=
  In X (b_dag s) /\ c_round X mod 2 = 0 /\ b_committed s < c_round X /\
  (exists a, leader (b_table s) (c_round X) = Some a /\ a_id a = c_origin X) /\ supported (b_dag s) X.
Definition leaders_of (s : bstate) (X : cert) (l : list cert) : Prop :=
  wrel (b_dag s) (b_table s) (step_rounds (b_committed s + 2) (c_round X - 2)) X [X] l.
Definition cstep (s : bstate) (X L : cert) (s' : bstate) (sd : subdag) : Prop :=
  anchored s X /\ (exists rest, leaders_of s X (L :: rest)) /\ exists b, commit_one s L = Ok (s', sd, b).

Lemma leader_facts s chain X L rest : Inv s chain -> anchored s X -> leaders_of s X (L :: rest) ->
  In L (b_dag s) /\ b_committed s < c_round L /\ c_round L mod 2 = 0 /\ c_round L <= c_round X /\
  (L = X /\ rest = [] \/ c_round L < c_round X /\ In (c_round L) (step_rounds (b_committed s + 2) (c_round X - 2))).
Proof.
  intros I (HX & He & Hc & _) W. pose proof (even_committed _ _ _ _ _ _ _ _ I) as EC.
  destruct (wrel_head _ _ _ _ _ _ _ _ W [] eq_refl) as (low & tl' & E & H). inversion E; subst low tl'.
  destruct H as [[-> ->]|[H1 H2]].
  - split; [assumption|]. split; [assumption|]. split; [assumption|]. split; [lia|left; auto].
  - pose proof H2 as H3. apply step_rounds_In in H3; [|lia|lia].
    split; [assumption|]. split; [lia|]. split; [lia|]. split; [lia|]. right. split; [lia|assumption].
Qed.

Lemma cstep_inv s chain X L s' sd : Inv s chain -> cstep s X L s' sd -> Inv s' (chain ++ [sd]).
Proof.
  intros I (A & (rest & W) & b & E). destruct (leader_facts s chain X L rest I A W) as (HL & Hc & He & _).
  destruct (commit_one_ok fsqrt fold_seed legacy_rand epoch_root seed_active cm gc_depth num pct G wf ok sqrt0 pct_ok
              s chain L I HL Hc He) as (s2 & sd2 & b2 & R & E2 & _ & _ & _ & _ & _ & _ & I' & _).
  rewrite E in E2. inversion E2; subst. exact I'.
Qed.

Inductive msteps : bstate -> list subdag -> list subdag -> bstate -> Prop :=
| ms_nil s chain : msteps s chain [] s
| ms_cons s chain X L s1 sd ds s' : Inv s chain -> cstep s X L s1 sd ->
    msteps s1 (chain ++ [sd]) ds s' -> msteps s chain (sd :: ds) s'.

Lemma msteps_inv s chain ds s' : msteps s chain ds s' -> Inv s chain -> Inv s' (chain ++ ds).
Proof.
  intros M. induction M as [s chain|s chain X L s1 sd ds s' I C M IH]; intros I0.
  - rewrite app_nil_r. exact I0.
  - replace (chain ++ sd :: ds) with ((chain ++ [sd]) ++ ds) by (rewrite <- app_assoc; reflexivity).
    apply IH. eapply cstep_inv; eassumption.
Qed.
Lemma msteps_app s chain ds1 s1 ds2 s2 : msteps s chain ds1 s1 -> msteps s1 (chain ++ ds1) ds2 s2 -> msteps s chain (ds1 ++ ds2) s2.
Proof.
  intros M. induction M as [s chain|s chain X L s1 sd ds s' I C M IH]; intros M2.
  - rewrite app_nil_r in M2. exact M2.
  - cbn [app]. eapply ms_cons; [exact I|exact C|]. apply IH. rewrite <- app_assoc. exact M2.
Qed.

Lemma supported_purge d g X : g <= c_round X -> supported (filter (fun y => g <? c_round y) d) X <-> supported d X.
Proof.
  intros H. unfold BullProofs1.supported, supporters. rewrite round_table_purge by lia. reflexivity.
Qed.

(* the loop over the leaders of one anchor *)
Lemma commit_all_spec leaders : forall s chain X, Inv s chain -> anchored s X -> leaders_of s X leaders ->
  exists s' o ds, commit_all s leaders = Ok (s', o, ds) /\ msteps s chain ds s' /\ ds <> [] /\
    (o = OCommit /\ b_committed s' = c_round X \/
     o = OScheduleChanged /\ b_committed s' < c_round X) /\
    b_committed s < b_committed s' /\
    b_dag s' = filter (fun y => b_gc s' <? c_round y) (b_dag s).
Proof.
  induction leaders as [|L rest IH]; intros s chain X I A W.
  { destruct (wrel_head _ _ _ _ _ _ _ _ W [] eq_refl) as (low & tl' & E & _). discriminate. }
  destruct (leader_facts s chain X L rest I A W) as (HL & Hc & He & HLX & HC).
  destruct (commit_one_ok fsqrt fold_seed legacy_rand epoch_root seed_active cm gc_depth num pct G wf ok sqrt0 pct_ok
              s chain L I HL Hc He) as (s1 & sd & b & R & E1 & _ & _ & _ & _ & _ & _ & I1 & D1 & C1 & T1 & _).
  assert (CS : cstep s X L s1 sd).
  { split; [exact A|]. split; [exists rest; exact W|]. exists b. exact E1. }
  cbn [BullModel.commit_all]. rewrite E1. destruct rest as [|L2 rest].
  - (* the anchor itself *)
    exists s1, OCommit, [sd]. split; [destruct b; reflexivity|].
    split; [eapply ms_cons; [exact I|exact CS|constructor]|]. split; [discriminate|].
    destruct HC as [[-> _]|[Hlt Hin]].
    + split; [left; split; [reflexivity|exact C1]|]. split; [lia|exact D1].
    + exfalso. destruct (wrel_rest _ _ _ _ _ _ _ _ W (step_rounds_sorted _ _) [] L [] eq_refl eq_refl) as [[-> _]|[_ W']]; [lia|].
      destruct (wrel_head _ _ _ _ _ _ _ _ W' [] eq_refl) as (? & ? & ? & _). discriminate.
  - destruct HC as [[_ X0]|[Hlt Hin]]; [discriminate|].
    assert (GCX : b_gc s1 < c_round X) by (rewrite (i_gc _ _ _ _ _ _ _ _ I1), C1; lia).
    assert (XIN : In X (b_dag s1)).
    { rewrite D1. apply filter_In. split; [apply A|apply N.ltb_lt; exact GCX]. }
    destruct b.
    + exists s1, OScheduleChanged, [sd]. split; [reflexivity|].
      split; [eapply ms_cons; [exact I|exact CS|constructor]|]. split; [discriminate|].
      split; [right; split; [reflexivity|lia]|]. split; [lia|exact D1].
    + specialize (T1 eq_refl).
      assert (A1 : anchored s1 X).
      { destruct A as (_ & A2 & _ & A4 & A5). split; [exact XIN|]. split; [exact A2|]. split; [lia|].
        split; [rewrite T1; exact A4|]. rewrite D1. apply supported_purge; [lia|exact A5]. }
      assert (W1 : leaders_of s1 X (L2 :: rest)).
      { destruct (wrel_rest _ _ _ _ _ _ _ _ W (step_rounds_sorted _ _) [] L (L2 :: rest) eq_refl eq_refl) as [[_ X0]|[_ W']]; [discriminate|].
        pose proof (even_committed _ _ _ _ _ _ _ _ I) as EC. destruct A as (_ & A2 & A3 & _).
        rewrite step_rounds_filter in W' by lia.
        unfold leaders_of. rewrite T1, C1, D1. apply wrel_purge; [|exact W'].
        intros r Hr. apply step_rounds_In in Hr; [|lia|lia].
        rewrite (i_gc _ _ _ _ _ _ _ _ I1), C1. lia. }
      destruct (IH s1 (chain ++ [sd]) X I1 A1 W1) as (s' & o & ds & E' & M' & N' & O' & P' & D').
      exists s', o, (sd :: ds). rewrite E'. split; [reflexivity|].
      split; [eapply ms_cons; [exact I|exact CS|exact M']|]. split; [discriminate|].
      split; [exact O'|]. split; [lia|]. rewrite D', D1. apply filter_filter_gt.
      pose proof (msteps_inv _ _ _ _ M' I1) as I'. rewrite (i_gc _ _ _ _ _ _ _ _ I'), (i_gc _ _ _ _ _ _ _ _ I1). lia.
Qed.

Lemma commit_leader_spec s chain r : Inv s chain -> r mod 2 = 0 -> b_committed s < r ->
  round_table (b_dag s) (r + 1) <> [] ->
  exists s' o ds, commit_leader s r = Ok (s', o, ds) /\ msteps s chain ds s' /\
    (o = OScheduleChanged -> b_committed s < b_committed s' /\ b_committed s' < r /\ round_table (b_dag s') (r + 1) <> []).
Proof.
  intros I Hr Hc HT. destruct (inv_leader s chain r I Hr) as (a & Ea & Ha).
  unfold BullModel.commit_leader. rewrite Ea. destruct (find_cert (b_dag s) r (a_id a)) as [X|] eqn:F.
  2:{ exists s, OLeaderNotFound, []. split; [reflexivity|]. split; [constructor|discriminate]. }
  apply find_cert_Some in F as (HX & HXr & HXo).
  destruct (round_table (b_dag s) (r + 1)) as [|c0 t0] eqn:RT; [contradiction|].
  destruct (N.ltb_spec (group_power cm (map c_origin (supporters (b_dag s) (r + 1) (c_digest X)))) (cm_validity cm)) as [L|L].
  { exists s, ONotEnoughSupport, []. split; [reflexivity|]. split; [constructor|discriminate]. }
  assert (A : anchored s X).
  { split; [assumption|]. rewrite HXr. split; [assumption|]. split; [assumption|]. split; [exists a; auto|].
    unfold BullProofs1.supported. rewrite HXr. exact L. }
  destruct (walk_total (b_dag s) (b_table s) (step_rounds (b_committed s + 2) (c_round X - 2))) with (cur := X) (acc := [X]) as (l & W).
  { intros r' Hr'. pose proof (even_committed _ _ _ _ _ _ _ _ I). apply step_rounds_In in Hr'; [|lia|lia].
    destruct (inv_leader s chain r' I) as (a' & Ea' & _); [lia|]. exists a'. assumption. }
  unfold order_leaders. rewrite HXr in *. rewrite Hr. cbn [N.eqb negb].
  rewrite (proj2 (walk_wrel _ _ _ _ _ _ _ _) W). rewrite <- HXr in W.
  destruct (commit_all_spec l s chain X I A W) as (s' & o & ds & E' & M' & _ & O' & P' & D').
  exists s', o, ds. split; [exact E'|]. split; [exact M'|]. intros ->.
  destruct O' as [[X0 _]|[_ O']]; [discriminate|]. split; [exact P'|]. split; [lia|].
  rewrite D', round_table_purge, RT; [discriminate|].
  pose proof (msteps_inv _ _ _ _ M' I) as I'. rewrite (i_gc _ _ _ _ _ _ _ _ I'). lia.
Qed.

Lemma commit_loop_spec fuel : forall s chain r, Inv s chain -> r mod 2 = 0 -> b_committed s < r ->
  round_table (b_dag s) (r + 1) <> [] -> (N.to_nat (r - b_committed s) < fuel)%nat ->
  exists s' o ds, commit_loop fuel s r = Ok (s', o, ds) /\ msteps s chain ds s'.
Proof.
  induction fuel as [|fuel IH]; intros s chain r I Hr Hc HT HF; [lia|]. cbn [BullModel.commit_loop].
  destruct (commit_leader_spec s chain r I Hr Hc HT) as (s' & o & ds & E & M & H). rewrite E.
  destruct o; try (exists s'; eexists; exists ds; split; [reflexivity|exact M]).
  destruct (H eq_refl) as (H1 & H2 & H3).
  destruct (IH s' (chain ++ ds) r (msteps_inv _ _ _ _ M I) Hr H2 H3) as (s2 & o2 & ds2 & E2 & M2); [lia|].
  rewrite E2. exists s2, o2, (ds ++ ds2). split; [reflexivity|]. eapply msteps_app; eassumption.
Qed.

(* ---------- inserting a certificate ---------- *)
Lemma insert_dagInv d gc x : dagInv G d gc -> G (c_header x) -> gc < c_round x ->
  (gc + 1 < c_round x -> forall p, In p (c_parents x) -> exists y, In y d /\ c_round y + 1 = c_round x /\ c_digest y = p) ->
  dagInv G (dag_insert x d) gc.
Proof.
  intros I Gx Hx HP.
  assert (REP : forall y, In y d -> exists z, In z (dag_insert x d) /\ c_header z = c_header y).
  { intros y Hy. destruct (same_slot x y) eqn:E.
    - apply same_slot_iff in E as [E1 E2]. exists x. split; [apply dag_insert_In; auto|].
      apply (d_noeq _ _ ok); [assumption|apply I; assumption|exact E1|exact E2].
    - exists y. split; [apply dag_insert_In; auto|reflexivity]. }
  constructor.
  - intros y Hy. apply dag_insert_In in Hy as [->|[Hy _]]; [assumption|apply I; assumption].
  - unfold dag_insert. cbn [map]. constructor.
    + intros H. apply in_map_iff in H as (y & E & Hy). apply filter_In in Hy as [_ Hy]. inversion E as [[E1 E2]].
      rewrite (proj2 (same_slot_iff x y)) in Hy; [discriminate|auto].
    + pose proof (di_uniq _ _ _ I) as U. clear - U. induction d as [|a d IH]; [constructor|]. cbn [map] in U.
      inversion U as [|? ? Hn U']; subst. cbn [filter]. destruct (negb _); [|apply IH; assumption].
      cbn [map]. constructor; [|apply IH; assumption]. intros H. apply Hn.
      apply in_map_iff in H as (y & E & Hy). apply filter_In in Hy as [Hy _]. apply in_map_iff. exists y. auto.
  - intros y Hy. apply dag_insert_In in Hy as [->|[Hy _]]; [assumption|apply (di_above _ _ _ I); assumption].
  - intros y Hy Hg p Hp.
    assert (Z : exists z, In z d /\ c_round z + 1 = c_round y /\ c_digest z = p).
    { apply dag_insert_In in Hy as [->|[Hy _]]; [apply HP; assumption|apply (di_closed _ _ _ I); assumption]. }
    destruct Z as (z & Hz & Hzr & Hzd). destruct (REP z Hz) as (w & Hw & E).
    exists w. split; [assumption|]. rewrite (hround _ _ E), (hdigest _ _ E). auto.
Qed.

Lemma check_parents_ok x d gc : check_parents x d gc = None -> gc + 1 < c_round x ->
  forall p, In p (c_parents x) -> exists y, In y d /\ c_round y + 1 = c_round x /\ c_digest y = p.
Proof.
  unfold check_parents. intros H Hg p Hp. destruct (N.leb_spec (c_round x) (gc + 1)); [lia|].
  destruct (round_table d (c_round x - 1)) as [|t0 t] eqn:E; [discriminate|].
  destruct (forallb _ _) eqn:F; [|discriminate]. rewrite forallb_forall in F. specialize (F p Hp).
  apply memN_In in F. apply in_map_iff in F as (y & Ey & Hy). rewrite <- E in Hy. apply round_table_In in Hy as [Hy Hr].
  exists y. split; [assumption|]. split; [lia|assumption].
Qed.

Lemma with_dag_inv s chain d : Inv s chain -> dagInv G d (b_gc s) -> Inv (with_dag s d) chain.
Proof. intros I D. destruct I. constructor; assumption. Qed.

Definition parent_error (e : berr) : Prop := e = EMissingParent \/ e = EMissingParentRound.

Lemma try_insert_spec s chain x : Inv s chain -> G (c_header x) ->
  match try_insert_in_dag (b_dag s) (b_last s) (b_gc s) x true with
  | Ok (d, b) => dagInv G d (b_gc s) /\ (d = b_dag s /\ b = false \/ d = dag_insert x (b_dag s) /\ b_gc s < c_round x)
  | Err e => parent_error e
  end.
Proof.
  intros I Gx. unfold try_insert_in_dag. destruct (N.leb_spec (c_round x) (b_gc s)) as [L|L].
  { split; [apply I|left; auto]. }
  destruct (check_parents x (b_dag s) (b_gc s)) as [e|] eqn:CP.
  { unfold check_parents in CP. destruct (_ <=? _); [discriminate|]. unfold parent_error.
    destruct (round_table _ _); [inversion CP; auto|]. destruct (forallb _ _); inversion CP; auto. }
  assert (DI : dagInv G (dag_insert x (b_dag s)) (b_gc s)).
  { apply insert_dagInv; [apply I|assumption|assumption|]. intros; eapply check_parents_ok; eassumption. }
  destruct (find_cert (b_dag s) (c_round x) (c_origin x)) as [y|] eqn:F; [|auto].
  apply find_cert_Some in F as (Hy & Hr & Ho).
  assert (E : c_header y = c_header x).
  { apply (d_noeq _ _ ok); [apply (di_G _ _ _ (i_dag _ _ _ _ _ _ _ _ I)); assumption|assumption|exact Hr|exact Ho]. }
  rewrite (hdigest _ _ E), N.eqb_refl. auto.
Qed.

Lemma process_spec s chain x : Inv s chain -> G (c_header x) ->
  match process_certificate s x with
  | Ok (s', o, ds) => exists s0, Inv s0 chain /\ msteps s0 chain ds s'
  | Err e => parent_error e
  end.
Proof.
  intros I Gx. unfold BullModel.process_certificate. pose proof (try_insert_spec s chain x I Gx) as T.
  destruct (try_insert_in_dag _ _ _ _ _) as [[d ins]|e]; [|exact T]. destruct T as [DI T].
  pose proof (with_dag_inv s chain d I DI) as I0. set (s0 := with_dag s d) in *.
  destruct ins; cbn [negb].
  2:{ exists s0. split; [exact I0|constructor]. }
  destruct T as [[_ T]|[-> Hg]]; [discriminate|].
  destruct (negb ((c_round x - 1) mod 2 =? 0) || (c_round x - 1 <? 2)) eqn:EB.
  { exists s0. split; [exact I0|constructor]. }
  apply orb_false_iff in EB as [E1 E2]. apply negb_false_iff, N.eqb_eq in E1. apply N.ltb_ge in E2.
  destruct (N.leb_spec (c_round x - 1) (b_committed s0)) as [L|L].
  { exists s0. split; [exact I0|constructor]. }
  destruct (commit_loop_spec (S (N.to_nat (c_round x - 1))) s0 chain (c_round x - 1) I0 E1 L) as (s' & o & ds & E & M).
  { replace (c_round x - 1 + 1) with (c_round x) by lia.
    assert (H : In x (round_table (b_dag s0) (c_round x))).
    { apply round_table_In. split; [|reflexivity]. cbn [s0 with_dag b_dag]. apply dag_insert_In. auto. }
    intros X. rewrite X in H. contradiction. }
  { lia. }
  rewrite E. destruct ds as [|d0 ds]; exists s0; (split; [exact I0|exact M]).
Qed.

Lemma new_certificate_spec s chain x : Inv s chain -> G (c_header x) ->
  match new_certificate s x with
  | Ok (s', ds) => exists s0, Inv s0 chain /\ msteps s0 chain ds s'
  | Err e => parent_error e
  end.
Proof.
  intros I Gx. unfold BullModel.new_certificate. destruct (_ =? _); [|exists s; split; [exact I|constructor]].
  pose proof (process_spec s chain x I Gx) as P. destruct (process_certificate s x) as [[[s' o] ds]|e]; exact P.
Qed.
End Steps.
