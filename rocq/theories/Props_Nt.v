(** C67: waiting for a certificate. *)
From Verif Require Import Util NtModel.
From Coq Require Import Relations.
Local Open Scope N_scope.

Definition key_of (p : phase) : option N :=
  match p with Idle => None | Registered k | Hit k _ | Waiting k | Dropped k _ | Finished k _ => Some k end.
Definition live (p : phase) : bool := match p with Registered _ | Hit _ _ | Waiting _ => true | _ => false end.
Lemma upd_same {A} (f : N -> A) k x : upd f k x k = x. Proof. unfold upd. rewrite N.eqb_refl. reflexivity. Qed.
Lemma upd_other {A} (f : N -> A) k x j : j <> k -> upd f k x j = f j. Proof. unfold upd. destruct (N.eqb_spec j k); congruence. Qed.
Record Inv (s : state) : Prop := {
  i_pend : forall w k, In w (pend s k) -> sent s w = None /\ key_of (ph s w) = Some k /\ (forall r, ph s w <> Finished k r) /\ (forall k' v, ~ In (w, k', v) (fly s));
  i_fly : forall w k v, In (w, k, v) (fly s) -> key_of (ph s w) = Some k /\ In (k, v) (log s);
  i_live : forall w, live (ph s w) = true -> (exists v, sent s w = Some v) \/ (exists k v, In (w, k, v) (fly s)) \/ (exists k, In w (pend s k));
  i_wait : forall w k v, ph s w = Waiting k -> In w (pend s k) -> store s k = Some v -> exists v', In (k, v') (wr s);
  i_sent : forall w v, sent s w = Some v -> exists k, key_of (ph s w) = Some k /\ In (k, v) (log s);
  i_store : forall k v, store s k = Some v -> In (k, v) (log s);
  i_wr : forall k v, In (k, v) (wr s) -> In (k, v) (log s);
  i_hit : forall w k v, ph s w = Hit k v \/ ph s w = Dropped k (Some v) \/ ph s w = Finished k (Some v) -> In (k, v) (log s) }.
Lemma inv_start : Inv start.
Proof. constructor; cbn; try tauto; try discriminate. intros w k v [H|[H|H]]; discriminate. Qed.
Lemma inv_take s k v : In (k, v) (log s) -> Inv s -> Inv (take s k v).
Proof.
  intros L [P F V W S T R H]. constructor; cbn [take store pend fly wr ph sent log]; auto.
  - intros w k' I. destruct (N.eq_dec k' k) as [->|Nk]; [rewrite upd_same in I; destruct I|]. rewrite upd_other in I by auto.
    destruct (P w k' I) as [P1 [P2 [P3 P4]]]. repeat split; auto. intros k2 v2 J. apply in_app_or in J. destruct J as [J|J]; [apply (P4 _ _ J)|].
    apply in_map_iff in J. destruct J as [w' [E J]]. injection E as <- <- <-. destruct (P w' k J) as [_ [Q _]]. congruence.
  - intros w k' v' I. apply in_app_or in I. destruct I as [I|I]; [auto|]. apply in_map_iff in I. destruct I as [w' [E I]]. injection E as <- <- <-.
    split; [apply (P w' k I)|auto].
  - intros w Hl. destruct (V w Hl) as [X|[[k' [v' X]]|[k' X]]]; [auto|right; left; exists k', v'; apply in_or_app; auto|].
    destruct (N.eq_dec k' k) as [->|Nk].
    + right. left. exists k, v. apply in_or_app. right. apply in_map_iff. eauto.
    + right. right. exists k'. rewrite upd_other; auto.
  - intros w k' v' Hw I E. destruct (N.eq_dec k' k) as [->|Nk]; [rewrite upd_same in I; destruct I|]. rewrite upd_other in I by auto. eauto.
Qed.
(** a waiter changes its phase and keeps its key *)
Lemma inv_ph s w p k : Inv s -> key_of (ph s w) = Some k -> key_of p = Some k ->
  (live p = true -> live (ph s w) = true) ->
  ((exists r, p = Finished k r) -> forall k', ~ In w (pend s k')) ->
  (p = Waiting k -> store s k = None) ->
  (forall v, p = Hit k v \/ p = Dropped k (Some v) \/ p = Finished k (Some v) -> In (k, v) (log s)) ->
  Inv (set_ph s w p).
Proof.
  intros [P F V W S T R H] K1 K2 HL HF HW HV. constructor; cbn [set_ph store pend fly wr ph sent log]; auto.
  - intros w' k' I. destruct (P w' k' I) as [P1 [P2 [P3 P4]]]. destruct (N.eq_dec w' w) as [->|Nw].
    + rewrite upd_same. assert (k' = k) by congruence. subst k'. repeat split; auto. intros r E. apply (HF ltac:(eauto) k I).
    + rewrite upd_other by auto. auto.
  - intros w' k' v I. destruct (F w' k' v I) as [F1 F2]. split; [|auto]. destruct (N.eq_dec w' w) as [->|Nw]; [rewrite upd_same; congruence|rewrite upd_other by auto; auto].
  - intros w' Hl. destruct (N.eq_dec w' w) as [->|Nw]; [rewrite upd_same in Hl; auto|rewrite upd_other in Hl by auto; auto].
  - intros w' k' v Hp I E. destruct (N.eq_dec w' w) as [->|Nw]; [|rewrite upd_other in Hp by auto; eauto]. rewrite upd_same in Hp. subst p.
    cbn in K2. injection K2 as ->. rewrite HW in E by auto. discriminate.
  - intros w' v E. destruct (S w' v E) as [k' [S1 S2]]. exists k'. split; [|auto]. destruct (N.eq_dec w' w) as [->|Nw]; [rewrite upd_same; congruence|rewrite upd_other by auto; auto].
  - intros w' k' v Hp. destruct (N.eq_dec w' w) as [->|Nw]; [|rewrite upd_other in Hp by auto; eauto]. rewrite upd_same in Hp.
    assert (k' = k) by (destruct Hp as [Hp|[Hp|Hp]]; subst p; cbn in K2; congruence). subst k'. auto.
Qed.
Lemma inv_step s s' : Inv s -> step s s' -> Inv s'.
Proof.
  intros I St. destruct St.
  - (* insert *) destruct I as [P F V W S T R H]. constructor; cbn [store pend fly wr ph sent log]; auto.
    + intros w k' v' J. destruct (F w k' v' J). split; [auto|right; auto].
    + intros w k' v' Hw J E. destruct (N.eq_dec k' k) as [->|Nk]; [exists v; left; auto|]. rewrite upd_other in E by auto. destruct (W w k' v' Hw J E) as [x X]. exists x. right. auto.
    + intros w v' E. destruct (S w v' E) as [k' [S1 S2]]. exists k'. split; [auto|right; auto].
    + intros k' v' E. destruct (N.eq_dec k' k) as [->|Nk]; [rewrite upd_same in E; injection E as ->; left; auto|]. rewrite upd_other in E by auto. right. auto.
    + intros k' v' [E|E]; [injection E as <- <-; left; auto|right; auto].
    + intros w k' v' Hp. right. eauto.
  - (* notify *) assert (L : In (k, v) (log s)) by (apply (i_wr s I); rewrite H; apply in_or_app; right; left; auto).
    pose proof (inv_take s k v L I) as J. destruct J as [P F V W S T R Hh]. cbn [take store pend fly wr ph sent log] in *.
    constructor; cbn [take store pend fly wr ph sent log]; auto.
    + intros w k' v' Hw J E. destruct (W w k' v' Hw J E) as [x X]. exists x. rewrite H in X. apply in_app_or in X. destruct X as [X|[X|X]]; [apply in_or_app; auto| |apply in_or_app; auto].
      injection X as <- <-. rewrite upd_same in J. destruct J.
    + intros k' v' X. apply R. rewrite H. apply in_app_or in X. apply in_or_app. destruct X; [auto|right; right; auto].
  - (* delete *) destruct I as [P F V W S T R H]. constructor; cbn [store pend fly wr ph sent log]; auto.
    + intros w k' v' Hw J E. destruct (N.eq_dec k' k) as [->|Nk]; [rewrite upd_same in E; discriminate|]. rewrite upd_other in E by auto. eauto.
    + intros k' v' E. destruct (N.eq_dec k' k) as [->|Nk]; [rewrite upd_same in E; discriminate|]. rewrite upd_other in E by auto. auto.
  - (* send *) destruct I as [P F V W S T R Hh].
    assert (IF : forall w' k' v', In (w', k', v') (a ++ b) -> In (w', k', v') (fly s)).
    { intros w' k' v' J. rewrite H. apply in_app_or in J. apply in_or_app. destruct J; [auto|right; right; auto]. }
    assert (Me : In (w, k, v) (fly s)) by (rewrite H; apply in_or_app; right; left; auto). destruct (F _ _ _ Me) as [K Lg].
    constructor; cbn [store pend fly wr ph sent log]; auto.
    + intros w' k' J. destruct (P w' k' J) as [P1 [P2 [P3 P4]]]. repeat split; auto; [|intros k2 v2 X; apply (P4 _ _ (IF _ _ _ X))].
      destruct (closed (ph s w)); [auto|]. destruct (N.eq_dec w' w) as [->|Nw]; [exfalso; apply (P4 _ _ Me)|rewrite upd_other; auto].
    + intros w' Hl. destruct (N.eq_dec w' w) as [->|Nw].
      * left. exists v. destruct (ph s w); cbn in Hl; try discriminate; cbn [closed]; rewrite upd_same; auto.
      * destruct (V w' Hl) as [[x X]|[[k' [x X]]|X]]; [left; exists x; destruct (closed (ph s w)); [auto|rewrite upd_other; auto]| |auto].
        right. left. exists k', x. rewrite H in X. apply in_app_or in X. apply in_or_app. destruct X as [X|[X|X]]; [auto|congruence|auto].
    + intros w' x E. destruct (closed (ph s w)); [auto|]. destruct (N.eq_dec w' w) as [->|Nw]; [rewrite upd_same in E; injection E as <-; eauto|rewrite upd_other in E by auto; auto].
  - (* register *) destruct I as [P F V W S T R Hh]. constructor; cbn [store pend fly wr ph sent log]; auto.
    + intros w' k' J. destruct (N.eq_dec w' w) as [->|Nw].
      * rewrite upd_same. assert (Sn : sent s w = None).
        { destruct (sent s w) eqn:E; [|auto]. destruct (S _ _ E) as [k2 [S1 _]]. rewrite H in S1. discriminate. }
        assert (k' = k). { destruct (N.eq_dec k' k) as [|Nk]; [auto|]. rewrite upd_other in J by auto. destruct (P _ _ J) as [_ [Q _]]. rewrite H in Q. discriminate. }
        subst k'. repeat split; auto; [intros r; discriminate|]. intros k2 v2 X. destruct (F _ _ _ X) as [Q _]. rewrite H in Q. discriminate.
      * rewrite upd_other by auto. apply P. destruct (N.eq_dec k' k) as [->|Nk]; [|rewrite upd_other in J by auto; auto].
        rewrite upd_same in J. apply in_app_or in J. destruct J as [J|[J|[]]]; [auto|congruence].
    + intros w' k' v J. destruct (F _ _ _ J) as [Q1 Q2]. split; [|auto]. rewrite upd_other; [auto|]. intros ->. rewrite H in Q1. discriminate.
    + intros w' Hl. destruct (N.eq_dec w' w) as [->|Nw].
      * right. right. exists k. rewrite upd_same. apply in_or_app. right. left. auto.
      * rewrite upd_other in Hl by auto. destruct (V w' Hl) as [X|[X|[k' X]]]; [auto|auto|]. right. right. exists k'.
        destruct (N.eq_dec k' k) as [->|Nk]; [rewrite upd_same; apply in_or_app; auto|rewrite upd_other; auto].
    + intros w' k' v Hw J E. destruct (N.eq_dec w' w) as [->|Nw]; [rewrite upd_same in Hw; discriminate|]. rewrite upd_other in Hw by auto.
      apply (W w' k' v Hw); [|auto]. destruct (N.eq_dec k' k) as [->|Nk]; [|rewrite upd_other in J by auto; auto].
      rewrite upd_same in J. apply in_app_or in J. destruct J as [J|[J|[]]]; [auto|congruence].
    + intros w' v E. destruct (S _ _ E) as [k' [S1 S2]]. exists k'. split; [|auto]. rewrite upd_other; [auto|]. intros ->. rewrite H in S1. discriminate.
    + intros w' k' v Hp. destruct (N.eq_dec w' w) as [->|Nw]; [rewrite upd_same in Hp; destruct Hp as [Hp|[Hp|Hp]]; discriminate|]. rewrite upd_other in Hp by auto. eauto.
  - (* hit *) apply inv_ph with k; auto; try (rewrite H; reflexivity); [intros [r E]; discriminate|discriminate|].
    intros v' [E|[E|E]]; try discriminate. injection E as <-. apply (i_store s I). auto.
  - (* miss *) apply inv_ph with k; auto; try (rewrite H; reflexivity); [intros [r E]; discriminate|]. intros v' [E|[E|E]]; discriminate.
  - (* hit_notify *) assert (L : In (k, v) (log s)) by (apply (i_hit s I w); auto).
    apply inv_ph with k; [apply inv_take; auto|cbn; rewrite H; reflexivity|reflexivity|discriminate|intros [r E]; discriminate|discriminate|].
    intros v' [E|[E|E]]; try discriminate. injection E as <-. exact L.
  - (* wake *) destruct (i_sent s I _ _ H0) as [k' [K L]]. rewrite H in K. injection K as <-.
    apply inv_ph with k; auto; try (rewrite H; reflexivity); [| discriminate|].
    + intros _ k' J. destruct (i_pend s I _ _ J) as [Q _]. congruence.
    + intros v' [E|[E|E]]; try discriminate. injection E as <-. exact L.
  - (* cancel *) apply inv_ph with k; auto; try (rewrite H; reflexivity); [intros [r E]; discriminate|discriminate|].
    intros v' [E|[E|E]]; discriminate.
  - (* cleanup *)
    assert (J : Inv (cleanup s k)).
    { destruct I as [P F V W S T R Hh]. assert (Sub : forall w' k', In w' (pend (cleanup s k) k') -> In w' (pend s k')).
      { intros w' k' X. cbn [cleanup pend] in X. destruct (N.eq_dec k' k) as [->|Nk]; [rewrite upd_same in X; apply filter_In in X; apply X|rewrite upd_other in X by auto; auto]. }
      constructor; cbn [cleanup store fly wr ph sent log]; auto.
      - intros w' Hl. destruct (V w' Hl) as [X|[X|[k' X]]]; [auto|auto|]. right. right. exists k'. cbn [cleanup pend].
        destruct (N.eq_dec k' k) as [->|Nk]; [rewrite upd_same; apply filter_In; split; [auto|]; destruct (ph s w'); auto; discriminate|rewrite upd_other; auto].
      - intros w' k' v Hw X E. apply (W w' k' v Hw); auto. }
    apply inv_ph with k; auto; try (cbn; rewrite H; reflexivity); [discriminate| |discriminate|].
    + intros _ k' X. cbn [cleanup pend] in X. destruct (N.eq_dec k' k) as [->|Nk].
      * rewrite upd_same in X. apply filter_In in X. rewrite H in X. destruct X; discriminate.
      * rewrite upd_other in X by auto. destruct (i_pend s I _ _ X) as [_ [Q _]]. rewrite H in Q. cbn in Q. congruence.
    + intros v' [E|[E|E]]; try discriminate. injection E as ->. apply (i_hit s I w). auto.
Qed.
Lemma reach_inv s : reach s -> Inv s.
Proof. induction 1; [apply inv_start|eapply inv_step; eauto]. Qed.

(** No wake-up is lost: whatever the interleaving, if a certificate is in the store, a waiter for it has its value or a notification that
    reaches it is under way. *)
Theorem C67_no_lost_wakeup s w k v : reach s -> ph s w = Waiting k -> store s k = Some v ->
  (exists v', sent s w = Some v') \/ (exists v', In (w, k, v') (fly s)) \/ (In w (pend s k) /\ exists v', In (k, v') (wr s)).
Proof.
  intros R W E. apply reach_inv in R. destruct (i_live s R w) as [X|[[k' [v' X]]|[k' X]]]; [rewrite W; reflexivity|auto| |].
  - destruct (i_fly s R _ _ _ X) as [Q _]. rewrite W in Q. injection Q as <-. eauto.
  - destruct (i_pend s R _ _ X) as [_ [Q _]]. rewrite W in Q. injection Q as <-. right. right. split; [auto|]. eapply i_wait; eauto.
Qed.
(** So when writers and notifications are done, nobody waits for a certificate that is there. *)
Theorem C67_quiescent s w k v : reach s -> wr s = [] -> fly s = [] -> ph s w = Waiting k -> store s k = Some v -> exists v', sent s w = Some v'.
Proof.
  intros R E1 E2 W E. destruct (C67_no_lost_wakeup s w k v R W E) as [X|[[v' X]|[_ [v' X]]]]; [auto|rewrite E2 in X; destruct X|rewrite E1 in X; destruct X].
Qed.
(** And the waiter can always be brought to its value by the writer's and its own steps alone. *)
Theorem C67_wakes s w k v : reach s -> ph s w = Waiting k -> store s k = Some v -> exists s' v', run s s' /\ ph s' w = Finished k (Some v').
Proof.
  intros R W E.
  assert (A : forall s v', ph s w = Waiting k -> sent s w = Some v' -> exists s' v', run s s' /\ ph s' w = Finished k (Some v')).
  { intros s0 v' W0 S0. eexists _, v'. split; [apply rt_step, s_wake; eauto|]. cbn. apply upd_same. }
  assert (B : forall s v', ph s w = Waiting k -> In (w, k, v') (fly s) -> exists s' v', run s s' /\ ph s' w = Finished k (Some v')).
  { intros s0 v' W0 F0. apply in_split in F0. destruct F0 as [a [b F0]].
    pose proof (s_send s0 a w k v' b F0) as St. match type of St with step _ ?x => set (s1 := x) in * end.
    destruct (A s1 v') as [s' [v2 [R1 P1]]]; [exact W0|cbn; rewrite W0; cbn; apply upd_same|]. exists s', v2. split; [|auto].
    eapply rt_trans; [apply rt_step; exact St|exact R1]. }
  destruct (C67_no_lost_wakeup s w k v R W E) as [[v' X]|[[v' X]|[Ip [v' X]]]]; [eauto|eauto|].
  apply in_split in X. destruct X as [a [b X]]. pose proof (s_notify s a k v' b X) as St. match type of St with step _ ?x => set (s1 := x) in * end.
  destruct (B s1 v') as [s' [v2 [R1 P1]]]; [exact W|cbn; apply in_or_app; right; apply in_map_iff; eauto|]. exists s', v2. split; [|auto].
  eapply rt_trans; [apply rt_step; exact St|exact R1].
Qed.
(** What a waiter gets was inserted under its key. *)
Theorem C67_right_value s w k v : reach s -> ph s w = Finished k (Some v) -> In (k, v) (log s).
Proof. intros R E. apply (i_hit s (reach_inv s R) w). auto. Qed.
(** A waiter's sender is never dropped before it sent: the waiter does not panic. *)
Theorem C67_no_panic s w k : reach s -> ph s w = Waiting k ->
  (exists v, sent s w = Some v) \/ (exists v, In (w, k, v) (fly s)) \/ In w (pend s k).
Proof.
  intros R W. apply reach_inv in R. destruct (i_live s R w) as [X|[[k' [v' X]]|[k' X]]]; [rewrite W; reflexivity|auto| |].
  - destruct (i_fly s R _ _ _ X) as [Q _]. rewrite W in Q. injection Q as <-. eauto.
  - destruct (i_pend s R _ _ X) as [_ [Q _]]. rewrite W in Q. injection Q as <-. auto.
Qed.
(** Nothing is left behind: a registration belongs to a waiter that has not finished. *)
Theorem C67_no_leak s : reach s -> (forall w, ph s w = Idle \/ exists k r, ph s w = Finished k r) -> forall k, pend s k = [].
Proof.
  intros R H k. apply reach_inv in R. destruct (pend s k) as [|w t] eqn:E; [auto|]. exfalso.
  destruct (i_pend s R w k) as [_ [Q1 [Q2 _]]]; [rewrite E; left; auto|]. destruct (H w) as [X|[k' [r X]]]; rewrite X in *; [discriminate|].
  cbn in Q1. injection Q1 as ->. apply (Q2 r). reflexivity.
Qed.

(** A waiter that read before the insert, and one that reads between the insert and the notification. *)
Theorem C67_example : exists s, reach s /\ ph s 1 = Finished 7 (Some 42) /\ ph s 2 = Finished 7 (Some 42) /\ ph s 3 = Waiting 8 /\ pend s 8 = [3] /\ pend s 7 = [].
Proof.
  pose proof r_start as R.
  match type of R with reach ?s => pose proof (NtModel.r_step s _ R (s_register s 3 8 eq_refl)) as R'; clear R; rename R' into R end.
  match type of R with reach ?s => pose proof (NtModel.r_step s _ R (s_miss s 3 8 eq_refl eq_refl)) as R'; clear R; rename R' into R end.
  match type of R with reach ?s => pose proof (NtModel.r_step s _ R (s_register s 1 7 eq_refl)) as R'; clear R; rename R' into R end.
  match type of R with reach ?s => pose proof (NtModel.r_step s _ R (s_miss s 1 7 eq_refl eq_refl)) as R'; clear R; rename R' into R end.
  match type of R with reach ?s => pose proof (NtModel.r_step s _ R (s_register s 2 7 eq_refl)) as R'; clear R; rename R' into R end.
  match type of R with reach ?s => pose proof (NtModel.r_step s _ R (s_insert s 7 42)) as R'; clear R; rename R' into R end.
  match type of R with reach ?s => pose proof (NtModel.r_step s _ R (s_hit s 2 7 42 eq_refl eq_refl)) as R'; clear R; rename R' into R end.
  match type of R with reach ?s => pose proof (NtModel.r_step s _ R (s_hit_notify s 2 7 42 eq_refl)) as R'; clear R; rename R' into R end.
  match type of R with reach ?s => pose proof (NtModel.r_step s _ R (s_cleanup s 2 7 (Some 42) eq_refl)) as R'; clear R; rename R' into R end.
  match type of R with reach ?s => pose proof (NtModel.r_step s _ R (s_send s [] 1 7 42 [(2, 7, 42)] eq_refl)) as R'; clear R; rename R' into R end.
  match type of R with reach ?s => pose proof (NtModel.r_step s _ R (s_wake s 1 7 42 eq_refl eq_refl)) as R'; clear R; rename R' into R end.
  match type of R with reach ?s => pose proof (NtModel.r_step s _ R (s_notify s [] 7 42 [] eq_refl)) as R'; clear R; rename R' into R end.
  eexists. split; [exact R|]. repeat split; reflexivity.
Qed.

(** What a waiter gets may be gone from the store by then: the garbage collector does not care who waits. *)
Theorem C67_gone_refuted : ~ (forall s w k v, reach s -> ph s w = Finished k (Some v) -> store s k <> None).
Proof.
  intros H. pose proof r_start as R.
  match type of R with reach ?s => pose proof (NtModel.r_step s _ R (s_register s 1 7 eq_refl)) as R'; clear R; rename R' into R end.
  match type of R with reach ?s => pose proof (NtModel.r_step s _ R (s_miss s 1 7 eq_refl eq_refl)) as R'; clear R; rename R' into R end.
  match type of R with reach ?s => pose proof (NtModel.r_step s _ R (s_insert s 7 42)) as R'; clear R; rename R' into R end.
  match type of R with reach ?s => pose proof (NtModel.r_step s _ R (s_notify s [] 7 42 [] eq_refl)) as R'; clear R; rename R' into R end.
  match type of R with reach ?s => pose proof (NtModel.r_step s _ R (s_send s [] 1 7 42 [] eq_refl)) as R'; clear R; rename R' into R end.
  match type of R with reach ?s => pose proof (NtModel.r_step s _ R (s_delete s 7)) as R'; clear R; rename R' into R end.
  match type of R with reach ?s => pose proof (NtModel.r_step s _ R (s_wake s 1 7 42 eq_refl eq_refl)) as R'; clear R; rename R' into R end.
  apply (H _ 1 7 42 R); reflexivity.
Qed.
