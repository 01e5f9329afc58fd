From Verif Require Import Util Types CommitteeModel CommitteeProofs CertModel LeaderModel LeaderProofs GasModel BullModel BullSpec BullProofs1 BullProofs2 BullProofs3 BullProofs4 BullProofs5 BullProofs6.
Local Open Scope N_scope.

(* ---------- sub-dags up to their randomness ---------- *)
Definition erase (d : subdag) : subdag := mkSubDag (sd_headers d) (sd_scores d) (sd_ts d) 0.
Lemma find_map {A B} (f : B -> bool) (g : A -> B) l : find f (map g l) = option_map g (find (fun x => f (g x)) l).
Proof. induction l as [|x l IH]; [reflexivity|]. cbn [map find]. destruct (f (g x)); [reflexivity|exact IH]. Qed.
Lemma chain_round_erase c : chain_round (map erase c) = chain_round c.
Proof. unfold chain_round. rewrite <- map_rev. destruct (rev c); reflexivity. Qed.
Lemma chain_wm_erase c a : chain_wm (map erase c) a = chain_wm c a.
Proof.
  unfold chain_wm. replace (flat_map sd_headers (map erase c)) with (flat_map sd_headers c); [reflexivity|].
  induction c as [|d c IH]; [reflexivity|]. cbn [map flat_map]. rewrite IH. reflexivity.
Qed.
Lemma chain_table_erase fsqrt cm pct c : chain_table fsqrt cm pct (map erase c) = chain_table fsqrt cm pct c.
Proof.
  unfold chain_table. rewrite <- map_rev, find_map.
  change (fun x => sc_final (sd_scores (erase x))) with (fun x => sc_final (sd_scores x)).
  destruct (find _ (rev c)); reflexivity.
Qed.
Lemma chain_last_erase c : chain_last (map erase c) = option_map erase (chain_last c).
Proof. unfold chain_last. rewrite <- map_rev. destruct (rev c); reflexivity. Qed.
Lemma resolve_erase cm num prev seq i : resolve_scores cm num (option_map erase prev) seq i = resolve_scores cm num prev seq i.
Proof. destruct prev; reflexivity. Qed.
Lemma ts_erase prev : match option_map erase prev with Some d => sd_ts d | None => 0 end =
                      match prev with Some d => sd_ts d | None => 0 end.
Proof. destruct prev; reflexivity. Qed.

Section Det.
Variable fsqrt : N -> N.
Variable choose : list authority -> N -> option authority.
Variable fold_seed : N -> N -> N -> N.
Variable legacy_rand : N -> N.
Variable epoch_root : N -> N.
Variable seed_active : N -> bool.
Variable cm : committee.
Variables gc_depth num pct : N.
Variable G : header -> Prop.
Hypothesis wf : committee_wf cm.
Hypothesis ok : dag_ok cm G.
Hypothesis sqrt0 : fsqrt 0 = 0.
Hypothesis pct_ok : pct <= 33.
Hypothesis choose_in : forall l r, l <> [] -> exists a, choose l r = Some a /\ In a l.
Hypothesis depth_ok : gc_depth <= 100.

Notation Inv := (Inv fsqrt epoch_root cm gc_depth pct G).
Notation cstep := (cstep fsqrt choose fold_seed legacy_rand seed_active cm gc_depth num pct).
Notation anchored := (anchored choose cm).
Notation leaders_of := (leaders_of choose cm).
Notation justified := (justified fsqrt choose fold_seed legacy_rand epoch_root seed_active cm gc_depth num pct G).

(* everything a commit fixes *)
Lemma cstep_facts s chain X L s' sd : Inv s chain -> cstep s X L s' sd ->
  exists R, In L (b_dag s) /\ b_committed s < c_round L /\ c_round L mod 2 = 0 /\ c_round L <= c_round X /\
    dfs (b_dag s) (b_last s) (c_round L - gc_depth + 1) (S (length (b_dag s))) [L] [] = Some R /\
    sd_headers sd = map c_header (sort_by_round R) /\
    resolve_scores cm num (chain_last chain) (sort_by_round R) (c_nonce L) = Ok (sd_scores sd) /\
    sd_ts sd = N.max (match chain_last chain with Some d => sd_ts d | None => 0 end) (h_created (c_header L)) /\
    sd_rand sd = (if seed_active (c_epoch L) then fold_seed (chain_seed epoch_root cm chain) (c_round L) (h_seed (c_header L))
                  else legacy_rand (match aggregated_signature (c_state L) with Some g => g | None => 0 end)) /\
    sd_leader sd = c_header L.
Proof.
  intros I (A & (rest & W) & b & E).
  destruct (leader_facts fsqrt choose fold_seed legacy_rand epoch_root seed_active cm gc_depth pct G sqrt0 pct_ok choose_in s chain X L rest I A W) as (HL & Hc & He & HX & _).
  destruct (commit_one_ok fsqrt fold_seed legacy_rand epoch_root seed_active cm gc_depth num pct G wf ok sqrt0 pct_ok
              s chain L I HL Hc He) as (s2 & sd2 & b2 & R & E2 & F1 & F2 & F3 & F4 & F5 & F6 & _).
  rewrite E in E2. inversion E2; subst. exists R. auto 12.
Qed.

Lemma inv_same s1 c1 s2 c2 : Inv s1 c1 -> Inv s2 c2 -> map erase c1 = map erase c2 ->
  b_committed s1 = b_committed s2 /\ b_gc s1 = b_gc s2 /\ b_table s1 = b_table s2 /\ wm_eqv (b_last s1) (b_last s2) (b_gc s1).
Proof.
  intros I1 I2 E.
  assert (CR : chain_round c1 = chain_round c2) by (rewrite <- (chain_round_erase c1), E; apply chain_round_erase).
  assert (EC : b_committed s1 = b_committed s2) by (rewrite (i_committed _ _ _ _ _ _ _ _ I1), (i_committed _ _ _ _ _ _ _ _ I2); exact CR).
  assert (EG : b_gc s1 = b_gc s2) by (rewrite (i_gc _ _ _ _ _ _ _ _ I1), (i_gc _ _ _ _ _ _ _ _ I2), EC; reflexivity).
  split; [exact EC|]. split; [exact EG|]. split.
  - pose proof (i_table _ _ _ _ _ _ _ _ I1) as T1. pose proof (i_table _ _ _ _ _ _ _ _ I2) as T2.
    rewrite <- chain_table_erase, E, chain_table_erase, T2 in T1. congruence.
  - intros a. rewrite (i_wm _ _ _ _ _ _ _ _ I1), EG, (i_wm _ _ _ _ _ _ _ _ I2).
    rewrite <- (chain_wm_erase c1), E, chain_wm_erase. reflexivity.
Qed.

(* the leader of the next commit is the same whatever anchor triggered it *)
Lemma next_leader s1 c1 s2 c2 X1 L1 r1 X2 L2 r2 : Inv s1 c1 -> Inv s2 c2 -> map erase c1 = map erase c2 ->
  anchored s1 X1 -> anchored s2 X2 -> leaders_of s1 X1 (L1 :: r1) -> leaders_of s2 X2 (L2 :: r2) ->
  c_round X1 <= c_round X2 -> c_header L1 = c_header L2.
Proof.
  intros I1 I2 E A1 A2 W1 W2 LE. destruct (inv_same _ _ _ _ I1 I2 E) as (EC & EG & ET & _).
  unfold BullProofs5.leaders_of in *. rewrite <- EC, <- ET in W2.
  pose proof (even_committed _ _ _ _ _ _ _ _ I1) as EV.
  destruct A1 as (H1 & P1 & Q1 & (a1 & B1 & O1) & S1). destruct A2 as (H2 & P2 & Q2 & (a2 & B2 & O2) & S2).
  pose proof (i_dag _ _ _ _ _ _ _ _ I1) as D1. pose proof (i_dag _ _ _ _ _ _ _ _ I2) as D2. rewrite <- EG in D2.
  assert (exists x1 b1 x2 b2, L1 :: r1 = x1 :: b1 /\ L2 :: r2 = x2 :: b2 /\ c_header x1 = c_header x2) as (x1 & b1 & x2 & b2 & F1 & F2 & F3).
  2:{ inversion F1; inversion F2; subst. exact F3. }
  destruct (N.eq_dec (c_round X1) (c_round X2)) as [EQ|NE].
  - assert (EX : c_header X1 = c_header X2).
    { apply (d_noeq _ _ ok); [apply D1; assumption|apply D2; assumption|exact EQ|].
      change (c_origin X1 = c_origin X2). rewrite <- O1, <- O2. rewrite <- ET, <- EQ, B1 in B2. congruence. }
    rewrite <- EQ in W2.
    eapply (walk_sim choose cm G ok (b_dag s1) (b_dag s2) (b_gc s1) (b_table s1)); try eassumption.
    + apply step_rounds_sorted.
    + intros r Hr. apply step_rounds_In in Hr; [|lia|lia]. lia.
  - assert (GCB : b_gc s1 < b_committed s1 + 2) by (rewrite (i_gc _ _ _ _ _ _ _ _ I1); lia).
    refine (walk_through choose cm G wf ok (b_dag s1) (b_dag s2) (b_gc s1) (b_table s1) (b_committed s1 + 2) X1 X2 _ _ a1
              D1 D2 H1 H2 _ _ GCB P1 P2 _ _ B1 O1 S1 W1 W2); lia.
Qed.

Lemma next_det s1 c1 s2 c2 X1 L1 s1' sd1 X2 L2 s2' sd2 : Inv s1 c1 -> Inv s2 c2 -> map erase c1 = map erase c2 ->
  cstep s1 X1 L1 s1' sd1 -> cstep s2 X2 L2 s2' sd2 -> c_header L1 = c_header L2 /\ erase sd1 = erase sd2.
Proof.
  intros I1 I2 E C1 C2.
  assert (EL : c_header L1 = c_header L2).
  { destruct C1 as (A1 & (r1 & W1) & _), C2 as (A2 & (r2 & W2) & _).
    destruct (N.le_ge_cases (c_round X1) (c_round X2)) as [LE|LE].
    - exact (next_leader _ _ _ _ _ _ _ _ _ _ I1 I2 E A1 A2 W1 W2 LE).
    - symmetry. exact (next_leader _ _ _ _ _ _ _ _ _ _ I2 I1 (eq_sym E) A2 A1 W2 W1 LE). }
  split; [exact EL|].
  destruct (cstep_facts _ _ _ _ _ _ I1 C1) as (R1 & HL1 & _ & _ & _ & D1 & F1 & G1 & T1 & _).
  destruct (cstep_facts _ _ _ _ _ _ I2 C2) as (R2 & HL2 & _ & _ & _ & D2 & F2 & G2 & T2 & _).
  destruct (inv_same _ _ _ _ I1 I2 E) as (EC & EG & ET & WM).
  pose proof (i_dag _ _ _ _ _ _ _ _ I1) as DI1. pose proof (i_dag _ _ _ _ _ _ _ _ I2) as DI2. rewrite <- EG in DI2.
  rewrite <- (hround _ _ EL) in D2.
  assert (ER : map c_header R1 = map c_header R2).
  { eapply (dfs_sim cm G ok (b_dag s1) (b_dag s2) (b_last s1) (b_last s2) (b_gc s1)); try eassumption.
    - intros y [<-|[]]. assumption.
    - intros y [<-|[]]. assumption.
    - cbn [map]. rewrite EL. reflexivity. }
  pose proof (sort_sim _ _ ER) as ES.
  assert (ELAST : option_map erase (chain_last c1) = option_map erase (chain_last c2)).
  { rewrite <- !chain_last_erase, E. reflexivity. }
  assert (ESC : sd_scores sd1 = sd_scores sd2).
  { rewrite <- resolve_erase, ELAST, resolve_erase, (resolve_sim _ _ _ _ _ _ ES) in G1.
    replace (c_nonce L1) with (c_nonce L2) in G1 by (unfold c_nonce, c_epoch, c_round; rewrite EL; reflexivity). congruence. }
  assert (ETS : sd_ts sd1 = sd_ts sd2) by (rewrite T1, T2, EL, <- ts_erase, ELAST, ts_erase; reflexivity).
  unfold erase. rewrite F1, F2, ES, ESC, ETS. reflexivity.
Qed.

(* agreement of two justified chains, first up to randomness, then exactly *)
Lemma agree_erased c1 : justified c1 -> forall c2, justified c2 ->
  forall k, (k <= length c1)%nat -> (k <= length c2)%nat -> map erase (firstn k c1) = map erase (firstn k c2).
Proof.
  intros J1 c2 J2. induction k as [|k IH]; intros K1 K2; [reflexivity|].
  specialize (IH ltac:(lia) ltac:(lia)).
  destruct (nth_error c1 k) as [d1|] eqn:N1; [|apply nth_error_None in N1; lia].
  destruct (nth_error c2 k) as [d2|] eqn:N2; [|apply nth_error_None in N2; lia].
  destruct (justified_nth fsqrt choose fold_seed legacy_rand epoch_root seed_active cm gc_depth num pct G sqrt0 pct_ok choose_in depth_ok c1 J1 k d1 N1) as (s1 & X1 & L1 & s1' & I1 & C1).
  destruct (justified_nth fsqrt choose fold_seed legacy_rand epoch_root seed_active cm gc_depth num pct G sqrt0 pct_ok choose_in depth_ok c2 J2 k d2 N2) as (s2 & X2 & L2 & s2' & I2 & C2).
  destruct (next_det _ _ _ _ _ _ _ _ _ _ _ _ I1 I2 IH C1 C2) as [_ ED].
  assert (X : forall (c : list subdag) d, nth_error c k = Some d -> firstn (S k) c = firstn k c ++ [d]).
  { clear. intros c. revert k. induction c as [|a c IH]; intros k d H; [destruct k; discriminate|].
    destruct k as [|k]; [inversion H; reflexivity|]. cbn [firstn app]. f_equal. apply IH. exact H. }
  rewrite (X _ _ N1), (X _ _ N2), !map_app, IH. cbn [map]. rewrite ED. reflexivity.
Qed.

Lemma agree_exact (act : forall h, G h -> seed_active (h_epoch h) = true) c1 : justified c1 -> forall c2, justified c2 ->
  forall k, (k <= length c1)%nat -> (k <= length c2)%nat -> firstn k c1 = firstn k c2.
Proof.
  intros J1 c2 J2. induction k as [|k IH]; intros K1 K2; [reflexivity|].
  specialize (IH ltac:(lia) ltac:(lia)).
  destruct (nth_error c1 k) as [d1|] eqn:N1; [|apply nth_error_None in N1; lia].
  destruct (nth_error c2 k) as [d2|] eqn:N2; [|apply nth_error_None in N2; lia].
  destruct (justified_nth fsqrt choose fold_seed legacy_rand epoch_root seed_active cm gc_depth num pct G sqrt0 pct_ok choose_in depth_ok c1 J1 k d1 N1) as (s1 & X1 & L1 & s1' & I1 & C1).
  destruct (justified_nth fsqrt choose fold_seed legacy_rand epoch_root seed_active cm gc_depth num pct G sqrt0 pct_ok choose_in depth_ok c2 J2 k d2 N2) as (s2 & X2 & L2 & s2' & I2 & C2).
  destruct (next_det _ _ _ _ _ _ _ _ _ _ _ _ I1 I2 (f_equal (map erase) IH) C1 C2) as [EL ED].
  destruct (cstep_facts _ _ _ _ _ _ I1 C1) as (R1 & HL1 & _ & _ & _ & _ & _ & _ & _ & Q1 & _).
  destruct (cstep_facts _ _ _ _ _ _ I2 C2) as (R2 & HL2 & _ & _ & _ & _ & _ & _ & _ & Q2 & _).
  assert (ER : sd_rand d1 = sd_rand d2).
  { rewrite Q1, Q2. pose proof (act _ (di_G _ _ _ (i_dag _ _ _ _ _ _ _ _ I1) _ HL1)) as T1.
    pose proof (act _ (di_G _ _ _ (i_dag _ _ _ _ _ _ _ _ I2) _ HL2)) as T2.
    change (seed_active (c_epoch L1) = true) in T1. change (seed_active (c_epoch L2) = true) in T2.
    rewrite T1, T2, IH, EL, (hround _ _ EL). reflexivity. }
  assert (d1 = d2).
  { clear - ED ER. destruct d1, d2. unfold erase in ED. cbn in ED, ER. inversion ED. subst. reflexivity. }
  assert (X : forall (c : list subdag) d, nth_error c k = Some d -> firstn (S k) c = firstn k c ++ [d]).
  { clear. intros c. revert k. induction c as [|a c IH]; intros k d H; [destruct k; discriminate|].
    destruct k as [|k]; [inversion H; reflexivity|]. cbn [firstn app]. f_equal. apply IH. exact H. }
  rewrite (X _ _ N1), (X _ _ N2), IH. subst. reflexivity.
Qed.
End Det.
