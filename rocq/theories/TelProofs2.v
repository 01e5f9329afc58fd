(* Histories of the TEL precompile: conservation, event log, timelock, roles *)
From Verif Require Import Util TelModel TelSpec TelProofs.
Local Open Scope N_scope.

Section P2.
Variable kslot : N -> N -> N.
Variable ovf : N -> N -> N.
Variable faucet : bool.
Hypothesis SL : slots_ok kslot.

Notation amt a := (kslot 0 a).
Notation tim a := (kslot 1 a).
Notation role a := (kslot 3 a).
Notation step := (tstep kslot ovf faucet).
Notation run := (trun kslot ovf faucet).
Notation call := (evm_call kslot ovf faucet).
Notation okc := (ok_case kslot ovf faucet).

Lemma amt100 a : (100 =? amt a) = false.
Proof. apply N.eqb_neq. intros H. symmetry in H. revert H. apply (proj2 SL). lia. Qed.
Lemma tim100 a : (100 =? tim a) = false.
Proof. apply N.eqb_neq. intros H. symmetry in H. revert H. apply (proj2 SL). lia. Qed.
Lemma role100 a : (100 =? role a) = false.
Proof. apply N.eqb_neq. intros H. symmetry in H. revert H. apply (proj2 SL). lia. Qed.
Lemma amt_100 a : (amt a =? 100) = false.
Proof. rewrite N.eqb_sym. apply amt100. Qed.
Lemma tim_100 a : (tim a =? 100) = false.
Proof. rewrite N.eqb_sym. apply tim100. Qed.
Lemma role_100 a : (role a =? 100) = false.
Proof. rewrite N.eqb_sym. apply role100. Qed.
Lemma slot_ne b b' a a' : b < 4 -> b' < 4 -> b <> b' -> (kslot b a =? kslot b' a') = false.
Proof. intros H1 H2 H. apply N.eqb_neq. intros E. apply (proj1 SL) in E; auto. tauto. Qed.
Lemma slot_eq b a a' : b < 4 -> (kslot b a =? kslot b a') = (a =? a').
Proof.
  intros Hb. destruct (a =? a') eqn:E.
  - apply N.eqb_eq in E as ->. apply N.eqb_refl.
  - apply N.eqb_neq in E. apply N.eqb_neq. intros H. apply (proj1 SL) in H; auto. tauto.
Qed.

Lemma run_app st h1 h2 : run st (h1 ++ h2) = run (run st h1) h2.
Proof. unfold trun. apply fold_left_app. Qed.
Lemma run_snoc st h e : run st (h ++ [e]) = step (run st h) e.
Proof. rewrite run_app. reflexivity. Qed.

(* ---- supply and log of a successful precompile run ---- *)
Ltac sto := cbn [t_sto t_logs t_bal t_now emit sstore set_bal balance_incr];
  unfold upd; rewrite ?amt100, ?tim100, ?role100, ?N.eqb_refl.

Lemma created_app a b : created (a ++ b) = created a + created b.
Proof.
  induction a as [|x a IH]; cbn [app created]; [lia|].
  destruct x as [? ? ?|? ?|?|[|p] ? ?]; rewrite IH; lia.
Qed.
Lemma destroyed_app a b : destroyed (a ++ b) = destroyed a + destroyed b.
Proof.
  induction a as [|x a IH]; cbn [app destroyed]; [lia|].
  destruct x as [? ? ?|? ?|?|[|p] [|q] ?]; rewrite IH; lia.
Qed.

Lemma ok_logs st i st' o : okc st i st' o ->
  exists new, t_logs st' = t_logs st ++ new /\
    supply st' + destroyed new = supply st + created new.
Proof.
  intros H. unfold supply. destruct H as
    [w Hf Hc Hs Hv Hg Hgas
    |w a Hc Hs Hv Hg Hgas Ha Ha0 Ht st3 Hov
    |w Hc Hs Hv Hg Hgas Hb Hsup
    |Hc Hv Hgas
    |s v w Hf Hsv Hc Hs Hv Hg Hgas
    |w Hf Hc Hv Hgas
    |w1 w2 Hf Hc Hs Hv Hg Hgas Ha0 Hov].
  - eexists. split; [sto; reflexivity|]. sto. cbn [created destroyed]. lia.
  - eexists. split; [sto; rewrite <- app_assoc; reflexivity|].
    subst st3. sto. cbn [app created destroyed]. lia.
  - eexists. split; [sto; destruct (uint w =? 0); rewrite <- app_assoc; reflexivity|].
    sto. cbn [app created destroyed PRE]. lia.
  - exists []. rewrite app_nil_r. cbn [created destroyed]. split; auto.
  - exists []. sto. rewrite app_nil_r. cbn [created destroyed]. split; auto.
  - exists []. rewrite app_nil_r. cbn [created destroyed]. split; auto.
  - eexists. split; [sto; rewrite <- app_assoc; reflexivity|].
    sto. cbn [app created destroyed]. lia.
Qed.

Lemma move_frame st src dst v :
  t_sto (step st (EvMove src dst v)) = t_sto st /\
  t_logs (step st (EvMove src dst v)) = t_logs st /\
  t_now (step st (EvMove src dst v)) = t_now st.
Proof.
  cbn [tstep]. destruct ((src =? PRE) || (t_bal st src <? v)); auto. cbv zeta.
  destruct (_ <? U256_LIM); auto.
Qed.

Lemma step_logs st e :
  exists new, t_logs (step st e) = t_logs st ++ new /\
    supply (step st e) + destroyed new = supply st + created new.
Proof.
  destruct e as [now|src dst v|f].
  - exists []. cbn. rewrite app_nil_r. split; auto.
  - exists []. unfold supply. destruct (move_frame st src dst v) as [-> [-> _]].
    rewrite app_nil_r. cbn. split; auto.
  - cbn [tstep]. destruct (snd (call st f)) as [o|] eqn:E.
    + destruct (call_ok _ _ _ _ _ _ E) as [st1 [Hp Hok]].
      destruct (pre_frame _ _ _ Hp) as [Hs [Hl _]].
      destruct (ok_logs _ _ _ _ Hok) as [new [A B]]. exists new.
      unfold supply in *. rewrite Hs in B. rewrite Hl in A. auto.
    + rewrite (call_fail _ _ _ _ _ E). exists []. rewrite app_nil_r. cbn. split; auto.
Qed.

Lemma run_logs h : forall st,
  exists new, t_logs (run st h) = t_logs st ++ new /\
    supply (run st h) + destroyed new = supply st + created new.
Proof.
  induction h as [|e h IH]; intros st.
  - exists []. rewrite app_nil_r. cbn. split; auto.
  - destruct (step_logs st e) as [n1 [A1 B1]]. destruct (IH (step st e)) as [n2 [A2 B2]].
    exists (n1 ++ n2). change (run st (e :: h)) with (run (step st e) h).
    rewrite A2, A1, app_assoc, created_app, destroyed_app. split; auto. lia.
Qed.

(* ---- conservation ---- *)
Lemma set_bal_sum st a v U : NoDup U -> In a U ->
  bal_sum (t_bal (set_bal st a v)) U + t_bal st a = bal_sum (t_bal st) U + v.
Proof. intros. cbn [t_bal set_bal]. apply bal_sum_upd; auto. Qed.

Lemma move_sum st a b v U : NoDup U -> In a U -> In b U -> v <= t_bal st a ->
  let st1 := set_bal st a (t_bal st a - v) in
  bal_sum (t_bal (set_bal st1 b (t_bal st1 b + v))) U = bal_sum (t_bal st) U.
Proof.
  intros Hn Ha Hb Hv st1.
  pose proof (set_bal_sum st a (t_bal st a - v) U Hn Ha) as H1. fold st1 in H1.
  pose proof (set_bal_sum st1 b (t_bal st1 b + v) U Hn Hb) as H2. lia.
Qed.

Lemma pre_sum st f st1 U : NoDup U -> In (f_self f) U -> In PRE U ->
  pre_transfer st f = Some st1 -> bal_sum (t_bal st1) U = bal_sum (t_bal st) U.
Proof.
  intros Hn Hs Hp. unfold pre_transfer. destruct (f_kind f); intros H.
  - hd; [discriminate H|]. hd; [discriminate H|]. cbv zeta in H. hd; [|discriminate H].
    injection H as <-. apply N.ltb_ge in E0.
    apply (move_sum st (f_self f) PRE (f_value f) U); auto.
  - hd; [discriminate H|]. injection H as <-. auto.
  - injection H as <-. auto.
  - injection H as <-. auto.
Qed.

Lemma pre_out st f st1 a : pre_transfer st f = Some st1 -> a <> f_self f -> a <> PRE ->
  t_bal st1 a = t_bal st a.
Proof.
  unfold pre_transfer. intros H H1 H2. destruct (f_kind f).
  - hd; [discriminate H|]. hd; [discriminate H|]. cbv zeta in H. hd; [|discriminate H].
    injection H as <-. cbn [t_bal set_bal]. rewrite !upd_other; auto.
  - hd; [discriminate H|]. injection H as <-. auto.
  - injection H as <-. auto.
  - injection H as <-. auto.
Qed.

Definition conserve (T : list N) (st st' : tstate) : Prop :=
  (forall a, ~ In a T -> t_bal st' a = t_bal st a) /\
  (forall U, NoDup U -> incl T U -> bal_sum (t_bal st) U <= supply st ->
     bal_sum (t_bal st') U + supply st = bal_sum (t_bal st) U + supply st').

Lemma incr_sum st a v U : NoDup U -> In a U -> bal_sum (t_bal st) U + v < U256_LIM ->
  bal_sum (t_bal (balance_incr ovf st a v)) U = bal_sum (t_bal st) U + v.
Proof.
  intros Hn Hi Hl. unfold balance_incr. pose proof (bal_sum_ge (t_bal st) a U Hi) as Hge.
  assert (E : (t_bal st a + v <? U256_LIM) = true) by (apply N.ltb_lt; lia). rewrite E.
  pose proof (set_bal_sum st a (t_bal st a + v) U Hn Hi). lia.
Qed.

Lemma ok_cons st i st' o : okc st i st' o -> exists T, conserve T st st'.
Proof.
  intros H. unfold conserve, supply. destruct H as
    [w Hf Hc Hs Hv Hg Hgas
    |w a Hc Hs Hv Hg Hgas Ha Ha0 Ht st3 Hov
    |w Hc Hs Hv Hg Hgas Hb Hsup
    |Hc Hv Hgas
    |s v w Hf Hsv Hc Hs Hv Hg Hgas
    |w Hf Hc Hv Hgas
    |w1 w2 Hf Hc Hs Hv Hg Hgas Ha0 Hov].
  - exists []. split; [reflexivity|]. intros U _ _ _. sto. reflexivity.
  - exists [addr w].
    assert (S3 : t_sto st3 100 = t_sto st 100) by (subst st3; sto; reflexivity).
    split.
    + intros x Hx. subst st3. sto. assert (x =? addr w = false) as -> by (apply N.eqb_neq; intros ->; apply Hx; left; auto).
      reflexivity.
    + intros U Hn Hi Hle. rewrite S3 in *.
      assert (E : bal_sum (t_bal (balance_incr ovf st (addr w) a)) U = bal_sum (t_bal st) U + a).
      { apply incr_sum; auto; [apply Hi; left; auto|lia]. }
      subst st3. cbn [t_sto t_bal emit sstore]. unfold upd at 1. rewrite N.eqb_refl.
      rewrite E. lia.
  - exists [PRE]. split.
    + intros x Hx. sto. destruct (uint w =? 0); auto. sto.
      assert (x =? PRE = false) as -> by (apply N.eqb_neq; intros ->; apply Hx; left; auto). reflexivity.
    + intros U Hn Hi Hle. cbn [t_sto t_bal emit sstore]. unfold upd at 1. rewrite N.eqb_refl.
      destruct (uint w =? 0) eqn:Z.
      * apply N.eqb_eq in Z. lia.
      * pose proof (set_bal_sum st PRE (t_bal st PRE - uint w) U Hn (Hi _ (or_introl eq_refl))).
        pose proof (bal_sum_ge (t_bal st) PRE U (Hi _ (or_introl eq_refl))). lia.
  - exists []. split; [reflexivity|]. intros; lia.
  - exists []. split; [reflexivity|]. intros U _ _ _. sto. reflexivity.
  - exists []. split; [reflexivity|]. intros; lia.
  - exists [addr w1]. split.
    + intros x Hx. sto. assert (x =? addr w1 = false) as -> by (apply N.eqb_neq; intros ->; apply Hx; left; auto).
      reflexivity.
    + intros U Hn Hi Hle.
      assert (E : bal_sum (t_bal (balance_incr ovf st (addr w1) (uint w2))) U = bal_sum (t_bal st) U + uint w2).
      { apply incr_sum; auto; [apply Hi; left; auto|lia]. }
      cbn [t_sto t_bal emit sstore]. unfold upd at 1. rewrite N.eqb_refl. rewrite E. lia.
Qed.

Lemma step_cons st e : exists T, conserve T st (step st e).
Proof.
  destruct e as [now|src dst v|f].
  - exists []. split; [reflexivity|]. intros; reflexivity.
  - exists [src; dst]. cbn [tstep].
    destruct ((src =? PRE) || (t_bal st src <? v)) eqn:E; [split; [reflexivity|intros; lia]|].
    cbv zeta. apply orb_false_iff in E as [_ E]. apply N.ltb_ge in E.
    destruct (_ <? U256_LIM) eqn:L; [|split; [reflexivity|intros; lia]]. split.
    + intros a Ha. cbn [t_bal set_bal]. rewrite !upd_other; auto.
      * intros ->; apply Ha; left; auto.
      * intros ->; apply Ha; right; left; auto.
    + intros U Hn Hi _. rewrite (move_sum st src dst v U); auto.
      * apply Hi; left; auto.
      * apply Hi; right; left; auto.
  - cbn [tstep]. destruct (snd (call st f)) as [o|] eqn:E.
    + destruct (call_ok _ _ _ _ _ _ E) as [st1 [Hp Hok]].
      destruct (pre_frame _ _ _ Hp) as [Hs _].
      destruct (ok_cons _ _ _ _ Hok) as [T [A B]].
      exists (f_self f :: PRE :: T). unfold conserve, supply in *. rewrite Hs in B. split.
      * intros a Ha. rewrite A; [|intros HT; apply Ha; right; right; auto].
        apply (pre_out _ _ _ _ Hp); intros ->; apply Ha; [left|right; left]; auto.
      * intros U Hn Hi Hle.
        assert (P : bal_sum (t_bal st1) U = bal_sum (t_bal st) U).
        { apply (pre_sum st f st1 U); auto; apply Hi; [left|right; left]; auto. }
        rewrite <- P. apply B; auto; [|rewrite P; auto].
        intros x Hx. apply Hi. right; right; auto.
    + rewrite (call_fail _ _ _ _ _ E). exists []. split; [reflexivity|intros; lia].
Qed.

Lemma run_cons h : forall st, exists T, conserve T st (run st h).
Proof.
  induction h as [|e h IH]; intros st.
  - exists []. split; [reflexivity|intros; cbn; lia].
  - destruct (step_cons st e) as [T1 [A1 B1]]. destruct (IH (step st e)) as [T2 [A2 B2]].
    exists (T1 ++ T2). change (run st (e :: h)) with (run (step st e) h). split.
    + intros a Ha. rewrite A2, A1; auto; intros H; apply Ha; apply in_app_iff; auto.
    + intros U Hn Hi Hle.
      assert (I1 : incl T1 U) by (intros x Hx; apply Hi, in_app_iff; auto).
      assert (I2 : incl T2 U) by (intros x Hx; apply Hi, in_app_iff; auto).
      specialize (B1 U Hn I1 Hle). assert (Hle2 : bal_sum (t_bal (step st e)) U <= supply (step st e)) by lia.
      specialize (B2 U Hn I2 Hle2). lia.
Qed.

Lemma extend (U T : list N) : NoDup U -> exists V, NoDup (U ++ V) /\ incl T (U ++ V).
Proof.
  intros Hn. exists (diffN (nodup N.eq_dec T) U). split.
  - apply NoDup_app_intro; auto.
    + apply NoDup_filter. apply NoDup_nodup.
    + intros x Hx Hy. apply diffN_In in Hy. tauto.
  - intros x Hx. apply in_app_iff. destruct (in_dec N.eq_dec x U); auto. right.
    apply diffN_In. split; auto. apply nodup_In; auto.
Qed.

Lemma conservation st0 h U :
  holders U (t_bal st0) -> holders U (t_bal (run st0 h)) ->
  bal_sum (t_bal st0) U <= supply st0 ->
  bal_sum (t_bal (run st0 h)) U + supply st0 = bal_sum (t_bal st0) U + supply (run st0 h).
Proof.
  intros [Hn H0] [_ H1] Hle. destruct (run_cons h st0) as [T [A B]].
  destruct (extend U T Hn) as [V [Hnd Hi]].
  assert (Z0 : bal_sum (t_bal st0) V = 0).
  { apply bal_sum_zero. intros a Ha. apply H0. intros HU.
    apply NoDup_app_elim in Hnd. destruct Hnd as [_ [_ D]]. exact (D a HU Ha). }
  assert (Z1 : bal_sum (t_bal (run st0 h)) V = 0).
  { apply bal_sum_zero. intros a Ha. apply H1. intros HU.
    apply NoDup_app_elim in Hnd. destruct Hnd as [_ [_ D]]. exact (D a HU Ha). }
  specialize (B (U ++ V) Hnd Hi). rewrite !bal_sum_app, Z0, Z1, !N.add_0_r in B. auto.
Qed.

Lemma holders_exist st0 h U : holders U (t_bal st0) ->
  exists V, holders (U ++ V) (t_bal st0) /\ holders (U ++ V) (t_bal (run st0 h)).
Proof.
  intros [Hn H0]. destruct (run_cons h st0) as [T [A B]].
  destruct (extend U T Hn) as [V [Hnd Hi]]. exists V. split; split; auto.
  - intros a Ha. apply H0. intros H; apply Ha, in_app_iff; auto.
  - intros a Ha. rewrite A; [apply H0; intros H; apply Ha, in_app_iff; auto|].
    intros H; apply Ha, Hi, H.
Qed.

(* ---- who may change the precompile's storage ---- *)
Lemma ok_change st i st' o : okc st i st' o ->
  (forall k, t_sto st' k = t_sto st k) \/
  pi_caller i = GOV \/
  (faucet = true /\ (exists w1 w2, calls2 (pi_data i) SEL_FAUCET_MINT w1 w2) /\
   t_sto st (role (pi_caller i)) <> 0).
Proof.
  intros H. destruct H as
    [w Hf Hc Hs Hv Hg Hgas
    |w a Hc Hs Hv Hg Hgas Ha Ha0 Ht st3 Hov
    |w Hc Hs Hv Hg Hgas Hb Hsup
    |Hc Hv Hgas
    |s v w Hf Hsv Hc Hs Hv Hg Hgas
    |w Hf Hc Hv Hgas
    |w1 w2 Hf Hc Hs Hv Hg Hgas Ha0 Hov]; auto.
  destruct Hg as [Hg|Hg]; auto. right; right. split; auto. split; eauto.
Qed.

Lemma step_now_bound st h : t_now st < 2 ^ 64 -> times_ok h -> t_now (run st h) < 2 ^ 64.
Proof.
  revert st; induction h as [|e h IH]; intros st H0 Ht; auto.
  change (run st (e :: h)) with (run (step st e) h). apply IH.
  - destruct e as [now|src dst v|f].
    + apply Ht. left; auto.
    + destruct (move_frame st src dst v) as [_ [_ ->]]. auto.
    + cbn [tstep]. destruct (snd (call st f)) as [o|] eqn:E.
      * destruct (call_ok _ _ _ _ _ _ E) as [st1 [Hp Hok]].
        destruct (pre_frame _ _ _ Hp) as [_ [_ Hn]]. rewrite <- Hn in H0.
        destruct Hok; cbn [t_now emit sstore set_bal balance_incr]; auto.
        destruct (uint w =? 0); auto.
      * rewrite (call_fail _ _ _ _ _ E). auto.
  - intros t Hin. apply Ht. right; auto.
Qed.

(* ---- pending mints ---- *)
Lemma succ_some st f : succeeds kslot ovf faucet st f ->
  exists o, snd (call st f) = Some o.
Proof. unfold succeeds. destruct (snd (call st f)) as [o|]; [eauto|tauto]. Qed.

(* A call that is not a successful mint or claim leaves amount and timestamp words alone. *)
Lemma sel_disj d s s' w w' : calls1 d s w -> calls1 d s' w' -> length s = 4%nat -> length s' = 4%nat -> s = s'.
Proof.
  intros [_ [r H]] [_ [r' H']] L L'. rewrite H in H'.
  apply (f_equal (firstn 4)) in H'. rewrite !firstn_app, L, L' in H'.
  rewrite Nat.sub_diag in H'. rewrite !firstn_O in H'. rewrite (firstn_all2 s), (firstn_all2 s') in H' by lia.
  rewrite !app_nil_r in H'. exact H'.
Qed.

Lemma call1_dec d s : length s = 4%nat -> (exists w, calls1 d s w) \/ (forall w, ~ calls1 d s w).
Proof.
  intros L. destruct (eqb_bytes (firstn 4 d) s) eqn:E.
  - apply eqb_bytes_eq in E. destruct (le_lt_dec 32 (length (skipn 4 d))) as [Hl|Hl].
    + left. exists (slice 0 32 (skipn 4 d)). apply calls1_of; auto. apply calls0_iff; auto.
    + right. intros w H. destruct (calls1_data _ _ _ H L) as [_ [H1 _]].
      apply Nat.ltb_ge in H1. lia.
  - right. intros w H. destruct (calls1_data _ _ _ H L) as [H1 _].
    apply calls0_iff in H1; auto. rewrite H1 in E.
    rewrite (proj2 (eqb_bytes_eq s s) eq_refl) in E. discriminate E.
Qed.

Lemma ok_pending st i st' o : okc st i st' o ->
  (forall w, ~ calls1 (pi_data i) SEL_MINT w) -> (forall w, ~ calls1 (pi_data i) SEL_CLAIM w) ->
  forall a, t_sto st' (amt a) = t_sto st (amt a) /\ t_sto st' (tim a) = t_sto st (tim a).
Proof.
  intros H Hm Hcl x. destruct H as
    [w Hf Hc Hs Hv Hg Hgas
    |w a Hc Hs Hv Hg Hgas Ha Ha0 Ht st3 Hov
    |w Hc Hs Hv Hg Hgas Hb Hsup
    |Hc Hv Hgas
    |s v w Hf Hsv Hc Hs Hv Hg Hgas
    |w Hf Hc Hv Hgas
    |w1 w2 Hf Hc Hs Hv Hg Hgas Ha0 Hov]; auto.
  - exfalso; eapply Hm; eauto.
  - exfalso; eapply Hcl; eauto.
  - cbn [t_sto emit sstore]. unfold upd. rewrite amt_100, tim_100.
    destruct (uint w =? 0); auto.
  - cbn [t_sto sstore]. unfold upd. rewrite !slot_ne by lia. auto.
  - cbn [t_sto emit sstore balance_incr set_bal]. unfold upd. rewrite amt_100, tim_100. auto.
Qed.

Lemma step_pending st e :
  (forall f, e = EvCall f -> is_mint f \/ is_claim f -> ~ succeeds kslot ovf faucet st f) ->
  forall a, t_sto (step st e) (amt a) = t_sto st (amt a) /\
            t_sto (step st e) (tim a) = t_sto st (tim a).
Proof.
  intros H x. destruct e as [now|src dst v|f]; auto.
  - destruct (move_frame st src dst v) as [-> _]. auto.
  - cbn [tstep]. destruct (snd (call st f)) as [o|] eqn:E.
    + destruct (call_ok _ _ _ _ _ _ E) as [st1 [Hp Hok]].
      destruct (pre_frame _ _ _ Hp) as [Hs _]. rewrite <- Hs.
      assert (Su : succeeds kslot ovf faucet st f) by (unfold succeeds; rewrite E; congruence).
      eapply ok_pending; eauto; rewrite input_data.
      * intros w Hw. eapply H; eauto. left. exists w; auto.
      * intros w Hw. eapply H; eauto. right. exists w; auto.
    + rewrite (call_fail _ _ _ _ _ E). auto.
Qed.


Lemma calls_dec f : mint_or_claim f \/ ~ mint_or_claim f.
Proof.
  destruct (call1_dec (f_data f) SEL_MINT eq_refl) as [H|H]; [left; left; exact H|].
  destruct (call1_dec (f_data f) SEL_CLAIM eq_refl) as [H'|H']; [left; right; exact H'|].
  right. intros [[w X]|[w X]]; [eapply H|eapply H']; eauto.
Qed.

Lemma none_snoc P st h e :
  none_succeeds kslot ovf faucet P st h ->
  (forall f, e = EvCall f -> P f -> ~ succeeds kslot ovf faucet (run st h) f) ->
  none_succeeds kslot ovf faucet P st (h ++ [e]).
Proof.
  intros H1 H2 p f q E Pf. destruct q as [|x q' _] using rev_ind.
  2:{ assert (E' : h ++ [e] = (p ++ EvCall f :: q') ++ [x]).
    { rewrite E, <- app_assoc. reflexivity. }
    apply app_inj_tail in E' as [-> _]. eapply H1; eauto. }
  apply app_inj_tail in E as [-> ->]. apply H2; auto.
Qed.

Lemma word_inj d s w w' : calls1 d s w -> calls1 d s w' -> w = w'.
Proof.
  intros [L [r H]] [L' [r' H']]. rewrite H in H'. apply app_inv_head in H'.
  apply (f_equal (firstn 32)) in H'. rewrite !firstn_app, L, L' in H'.
  rewrite Nat.sub_diag, !firstn_O, !app_nil_r in H'.
  rewrite (firstn_all2 w), (firstn_all2 w') in H' by lia. exact H'.
Qed.

(* ---- no pending mint, no claim ---- *)
Lemma claim_needs st f : is_claim f -> succeeds kslot ovf faucet st f ->
  nothing_pending kslot st -> False.
Proof.
  intros [w Hw] S NP. destruct (succ_some _ _ S) as [o E].
  destruct (call_ok _ _ _ _ _ _ E) as [st1 [Hp Hok]].
  destruct (pre_frame _ _ _ Hp) as [Hs _].
  remember (input_of f) as i eqn:Ei.
  assert (Di : pi_data i = f_data f) by (rewrite Ei; apply input_data).
  rewrite <- Di in Hw. clear E. destruct Hok as
    [w' Hf Hc Hst Hv Hg Hgas
    |w' a Hc Hst Hv Hg Hgas Ha Ha0 Ht st3 Hov
    |w' Hc Hst Hv Hg Hgas Hb Hsup
    |Hc Hv Hgas
    |s v w' Hf Hsv Hc Hst Hv Hg Hgas
    |w' Hf Hc Hv Hgas
    |w1 w2 Hf Hc Hst Hv Hg Hgas Ha0 Hov].
  - pose proof (sel_disj _ _ _ _ _ Hc Hw eq_refl eq_refl) as X. discriminate X.
  - apply Ha0. rewrite Ha, Hs. apply NP.
  - pose proof (sel_disj _ _ _ _ _ Hc Hw eq_refl eq_refl) as X. discriminate X.
  - destruct Hc as [q Hr]. destruct Hw as [_ [r' Hr']]. rewrite Hr in Hr'. discriminate Hr'.
  - destruct Hsv as [[-> _]|[-> _]];
    (pose proof (sel_disj _ _ _ _ _ Hc Hw eq_refl eq_refl) as X; discriminate X).
  - pose proof (sel_disj _ _ _ _ _ Hc Hw eq_refl eq_refl) as X. discriminate X.
  - destruct Hc as [_ [_ [q Hr]]]. destruct Hw as [_ [r' Hr']]. rewrite Hr in Hr'. discriminate Hr'.
Qed.

Lemma np_run st : nothing_pending kslot st -> forall h,
  none_succeeds kslot ovf faucet is_mint st h ->
  nothing_pending kslot (run st h) /\ none_succeeds kslot ovf faucet is_claim st h.
Proof.
  intros NP. induction h as [|e h IH] using rev_ind; intros Hm.
  - split; [exact NP|]. intros p f q Hx. destruct p; discriminate Hx.
  - assert (Hm' : none_succeeds kslot ovf faucet is_mint st h).
    { intros p f q -> Pf. eapply Hm; [|exact Pf]. rewrite <- app_assoc. reflexivity. }
    destruct (IH Hm') as [A B]. rewrite run_snoc.
    assert (C : forall f, e = EvCall f -> is_claim f -> ~ succeeds kslot ovf faucet (run st h) f).
    { intros f _ Cf Sf. eapply claim_needs; eauto. }
    split.
    + intros a. destruct (step_pending (run st h) e) with (a := a) as [-> _]; [|apply A].
      intros f -> [M|M]; [|apply C; auto]. apply (Hm h f []); auto.
    + apply none_snoc; auto.
Qed.

Lemma mint_main st f : is_mint f -> succeeds kslot ovf faucet st f -> faucet = false.
Proof.
  intros [w Hw] S. destruct (succ_some _ _ S) as [o E].
  destruct (call_ok _ _ _ _ _ _ E) as [st1 [Hp Hok]].
  remember (input_of f) as i eqn:Ei.
  assert (Di : pi_data i = f_data f) by (rewrite Ei; apply input_data).
  rewrite <- Di in Hw. clear E. destruct Hok as
    [w' Hf Hc Hst Hv Hg Hgas
    |w' a Hc Hst Hv Hg Hgas Ha Ha0 Ht st3 Hov
    |w' Hc Hst Hv Hg Hgas Hb Hsup
    |Hc Hv Hgas
    |s v w' Hf Hsv Hc Hst Hv Hg Hgas
    |w' Hf Hc Hv Hgas
    |w1 w2 Hf Hc Hst Hv Hg Hgas Ha0 Hov]; auto; exfalso.
  - pose proof (sel_disj _ _ _ _ _ Hc Hw eq_refl eq_refl) as X. discriminate X.
  - pose proof (sel_disj _ _ _ _ _ Hc Hw eq_refl eq_refl) as X. discriminate X.
  - destruct Hc as [q Hr]. destruct Hw as [_ [r' Hr']]. rewrite Hr in Hr'. discriminate Hr'.
  - destruct Hsv as [[-> _]|[-> _]];
    (pose proof (sel_disj _ _ _ _ _ Hc Hw eq_refl eq_refl) as X; discriminate X).
  - pose proof (sel_disj _ _ _ _ _ Hc Hw eq_refl eq_refl) as X. discriminate X.
  - destruct Hc as [_ [_ [q Hr]]]. destruct Hw as [_ [r' Hr']]. rewrite Hr in Hr'. discriminate Hr'.
Qed.

Lemma burn_ok st f o : snd (call st f) = Some o -> forall w, calls1 (f_data f) SEL_BURN w ->
  exists st1, pre_transfer st f = Some st1 /\
  let st' := fst (call st f) in
  acting f = GOV /\ uint w <= t_bal st1 PRE /\ uint w <= supply st /\
  supply st' = supply st - uint w /\ t_bal st' PRE = t_bal st1 PRE - uint w /\
  (forall a, a <> PRE -> t_bal st' a = t_bal st1 a).
Proof.
  intros E w Hw. destruct (call_ok _ _ _ _ _ _ E) as [st1 [Hp Hok]]. exists st1. split; auto.
  cbv zeta. set (st' := fst (call st f)) in *.
  destruct (pre_frame _ _ _ Hp) as [Hs [_ Hn]]. unfold supply. rewrite <- Hs.
  remember (input_of f) as i eqn:Ei.
  assert (Di : pi_data i = f_data f) by (rewrite Ei; apply input_data).
  assert (Ci : pi_caller i = acting f) by (rewrite Ei; apply input_caller).
  rewrite <- Di in Hw. clear E. destruct Hok as
    [w' Hf Hc Hst Hv Hg Hgas
    |w' a Hc Hst Hv Hg Hgas Ha Ha0 Ht st3 Hov
    |w' Hc Hst Hv Hg Hgas Hb Hsup
    |Hc Hv Hgas
    |s v w' Hf Hsv Hc Hst Hv Hg Hgas
    |w' Hf Hc Hv Hgas
    |w1 w2 Hf Hc Hst Hv Hg Hgas Ha0 Hov]; auto; try (exfalso; clear Ci;
      pose proof (sel_disj _ _ _ _ _ Hc Hw eq_refl eq_refl) as X; discriminate X).
  - rewrite (word_inj _ _ _ _ Hc Hw) in *. split; [congruence|]. split; [auto|]. split; [auto|].
    cbn [t_sto t_bal emit sstore]. unfold upd. rewrite N.eqb_refl. split; [auto|].
    destruct (uint w =? 0) eqn:Z.
    + apply N.eqb_eq in Z. rewrite Z. split; [lia|auto].
    + cbn [t_bal set_bal]. unfold upd. rewrite N.eqb_refl. split; [auto|].
      intros a Ha. apply N.eqb_neq in Ha. rewrite Ha. reflexivity.
  - exfalso. destruct Hc as [q Hr]. destruct Hw as [_ [r' Hr']]. rewrite Hr in Hr'. discriminate Hr'.
  - exfalso. destruct Hsv as [[-> _]|[-> _]];
    (pose proof (sel_disj _ _ _ _ _ Hc Hw eq_refl eq_refl) as X; discriminate X).
  - exfalso. destruct Hc as [_ [_ [q Hr]]]. destruct Hw as [_ [r' Hr']]. rewrite Hr in Hr'. discriminate Hr'.
Qed.

Lemma calls2_inj d s s' w1 w2 w1' w2' : calls2 d s w1 w2 -> calls2 d s' w1' w2' ->
  length s = 4%nat -> length s' = 4%nat -> s = s' /\ w1 = w1' /\ w2 = w2'.
Proof.
  intros H H' L L'.
  assert (C : calls1 d s w1) by (destruct H as [A [B [r ->]]]; split; eauto).
  assert (C' : calls1 d s' w1') by (destruct H' as [A [B [r ->]]]; split; eauto).
  pose proof (sel_disj _ _ _ _ _ C C' L L') as E. subst s'.
  pose proof (word_inj _ _ _ _ C C') as E. subst w1'. split; [auto|]. split; [auto|].
  destruct H as [A [B [r Hr]]]. destruct H' as [A' [B' [r' Hr']]]. rewrite Hr in Hr'.
  apply app_inv_head in Hr'. apply app_inv_head in Hr'.
  apply (f_equal (firstn 32)) in Hr'. rewrite !firstn_app, B, B' in Hr'.
  rewrite Nat.sub_diag, !firstn_O, !app_nil_r in Hr'.
  rewrite (firstn_all2 w2), (firstn_all2 w2') in Hr' by lia. exact Hr'.
Qed.

Lemma fmint_ok st f w1 w2 : calls2 (f_data f) SEL_FAUCET_MINT w1 w2 ->
  succeeds kslot ovf faucet st f ->
  let st' := fst (call st f) in
  (acting f = GOV \/ t_sto st (role (acting f)) <> 0) /\
  uint w2 <> 0 /\ supply st' = supply st + uint w2 /\
  (t_bal st (addr w1) + uint w2 < U256_LIM ->
   t_bal st' (addr w1) = t_bal st (addr w1) + uint w2) /\
  (forall a, a <> addr w1 -> t_bal st' a = t_bal st a).
Proof.
  intros Hw S st'. destruct (succ_some _ _ S) as [o E].
  destruct (call_ok _ _ _ _ _ _ E) as [st1 [Hp Hok]]. fold st' in Hok.
  destruct (pre_frame _ _ _ Hp) as [Hs [_ Hn]]. unfold supply.
  remember (input_of f) as i eqn:Ei.
  assert (Di : pi_data i = f_data f) by (rewrite Ei; apply input_data).
  assert (Ci : pi_caller i = acting f) by (rewrite Ei; apply input_caller).
  assert (Vi : pi_value i = 0 -> forall a, t_bal st1 a = t_bal st a).
  { intros V a. rewrite Ei in V. unfold pre_transfer in Hp. unfold input_of in V.
    destruct (f_kind f); cbn in V.
    - rewrite V in Hp. destruct (_ && _) in Hp; [discriminate Hp|].
      destruct (_ <? 0) in Hp; [discriminate Hp|]. cbv zeta in Hp.
      destruct (_ <? U256_LIM) in Hp; [|discriminate Hp]. injection Hp as <-.
      cbn [t_bal set_bal]. unfold upd. destruct (a =? PRE) eqn:EP.
      + apply N.eqb_eq in EP as ->. destruct (PRE =? f_self f) eqn:EF; [apply N.eqb_eq in EF as ->|]; lia.
      + destruct (a =? f_self f) eqn:EF; [apply N.eqb_eq in EF as ->|]; lia.
    - destruct (_ <? _) in Hp; [discriminate Hp|]. injection Hp as <-. reflexivity.
    - injection Hp as <-. reflexivity.
    - injection Hp as <-. reflexivity. }
  rewrite <- Di in Hw. rewrite <- Hs. clear E.
  assert (Hw1 : calls1 (pi_data i) SEL_FAUCET_MINT w1)
    by (destruct Hw as [A [B [r Hr]]]; split; eauto).
  destruct Hok as
    [w' Hf Hc Hst Hv Hg Hgas
    |w' a Hc Hst Hv Hg Hgas Ha Ha0 Ht st3 Hov
    |w' Hc Hst Hv Hg Hgas Hb Hsup
    |Hc Hv Hgas
    |s v w' Hf Hsv Hc Hst Hv Hg Hgas
    |w' Hf Hc Hv Hgas
    |u1 u2 Hf Hc Hst Hv Hg Hgas Ha0 Hov];
    try (exfalso; clear Ci; pose proof (sel_disj _ _ _ _ _ Hc Hw1 eq_refl eq_refl) as X; discriminate X).
  - exfalso. destruct Hc as [q Hr]. destruct Hw1 as [_ [r' Hr']]. rewrite Hr in Hr'. discriminate Hr'.
  - exfalso. destruct Hsv as [[-> _]|[-> _]];
    (pose proof (sel_disj _ _ _ _ _ Hc Hw1 eq_refl eq_refl) as X; discriminate X).
  - destruct (calls2_inj _ _ _ _ _ _ _ Hc Hw eq_refl eq_refl) as [_ [X1 X2]]. subst u1 u2.
    rewrite Ci in Hg. specialize (Vi Hv). split; [auto|]. split; [auto|].
    cbn [t_sto t_bal emit sstore balance_incr set_bal]. unfold upd. rewrite !N.eqb_refl.
    split; [auto|]. rewrite <- !Vi. split.
    + intros Hlt. apply N.ltb_lt in Hlt. rewrite Hlt. reflexivity.
    + intros a Ha. apply N.eqb_neq in Ha. rewrite Ha. apply Vi.
Qed.

(* ---- roles of the faucet build ---- *)

Lemma ok_role_word st i st' o a : okc st i st' o ->
  (t_sto st' (role a) = t_sto st (role a) /\
     ~ (exists w, calls1 (pi_data i) SEL_GRANT w /\ addr w = a) /\
     ~ (exists w, calls1 (pi_data i) SEL_REVOKE w /\ addr w = a)) \/
  (t_sto st' (role a) = 1 /\ exists w, calls1 (pi_data i) SEL_GRANT w /\ addr w = a) \/
  (t_sto st' (role a) = 0 /\ (exists w, calls1 (pi_data i) SEL_REVOKE w /\ addr w = a)).
Proof.
  intros H.
  assert (N1 : forall s w, calls1 (pi_data i) s w -> length s = 4%nat -> s <> SEL_GRANT -> s <> SEL_REVOKE ->
     ~ (exists w, calls1 (pi_data i) SEL_GRANT w /\ addr w = a) /\
     ~ (exists w, calls1 (pi_data i) SEL_REVOKE w /\ addr w = a)).
  { intros s w Hc L H1 H2. split; intros [w' [Hw' _]];
    pose proof (sel_disj _ _ _ _ _ Hc Hw' L eq_refl); auto. }
  destruct H as
    [w Hf Hc Hs Hv Hg Hgas
    |w x Hc Hs Hv Hg Hgas Ha Ha0 Ht st3 Hov
    |w Hc Hs Hv Hg Hgas Hb Hsup
    |Hc Hv Hgas
    |s v w Hf Hsv Hc Hs Hv Hg Hgas
    |w Hf Hc Hv Hgas
    |w1 w2 Hf Hc Hs Hv Hg Hgas Ha0 Hov].
  - left. split; [|eapply N1; eauto; discriminate].
    cbn [t_sto emit sstore]. unfold upd. rewrite !slot_ne by lia. reflexivity.
  - left. split; [|eapply N1; eauto; discriminate].
    subst st3. cbn [t_sto emit sstore balance_incr set_bal]. unfold upd.
    rewrite role_100, !slot_ne by lia. reflexivity.
  - left. split; [|eapply N1; eauto; discriminate].
    cbn [t_sto emit sstore]. unfold upd. rewrite role_100. destruct (uint w =? 0); reflexivity.
  - left. split; [reflexivity|]. destruct Hc as [r Hr].
    split; intros [w' [[_ [r' Hr']] _]]; rewrite Hr in Hr'; discriminate Hr'.
  - cbn [t_sto sstore]. unfold upd. rewrite slot_eq by lia. destruct (a =? addr w) eqn:E.
    + apply N.eqb_eq in E. right.
      destruct Hsv as [[-> ->]|[-> ->]]; [left|right]; (split; [reflexivity|exists w; auto]).
    + apply N.eqb_neq in E. left. split; [reflexivity|]. split; intros [w' [Hw' Ew]].
      * pose proof (sel_disj _ _ _ _ _ Hw' Hc eq_refl) as X.
        destruct Hsv as [[-> _]|[-> _]]; [|specialize (X eq_refl); discriminate X].
        rewrite (word_inj _ _ _ _ Hw' Hc) in Ew. congruence.
      * pose proof (sel_disj _ _ _ _ _ Hw' Hc eq_refl) as X.
        destruct Hsv as [[-> _]|[-> _]]; [specialize (X eq_refl); discriminate X|].
        rewrite (word_inj _ _ _ _ Hw' Hc) in Ew. congruence.
  - left. split; [reflexivity|eapply N1; eauto; discriminate].
  - left. split.
    + cbn [t_sto emit sstore balance_incr set_bal]. unfold upd. rewrite role_100. reflexivity.
    + destruct Hc as [_ [_ [r Hr]]].
      split; intros [w' [[_ [r' Hr']] _]]; rewrite Hr in Hr'; discriminate Hr'.
Qed.

Lemma role_hist st0 a : t_sto st0 (role a) = 0 -> forall h,
  t_sto (run st0 h) (role a) <> 0 <->
  exists h1 m h2, h = h1 ++ EvCall m :: h2 /\ is_grant a m /\
    succeeds kslot ovf faucet (run st0 h1) m /\
    none_succeeds kslot ovf faucet (is_revoke a) (run st0 (h1 ++ [EvCall m])) h2.
Proof.
  intros H0. induction h as [|e h IH] using rev_ind.
  { cbn. rewrite H0. split; [tauto|]. intros [h1 [m [h2 [E _]]]]. destruct h1; discriminate E. }
  rewrite run_snoc.
  assert (K : (t_sto (step (run st0 h) e) (role a) = t_sto (run st0 h) (role a) /\
     (forall f, e = EvCall f -> succeeds kslot ovf faucet (run st0 h) f -> ~ is_grant a f /\ ~ is_revoke a f)) \/
    (exists f, e = EvCall f /\ succeeds kslot ovf faucet (run st0 h) f /\
      ((is_grant a f /\ t_sto (step (run st0 h) e) (role a) = 1) \/
       (is_revoke a f /\ t_sto (step (run st0 h) e) (role a) = 0)))).
  { destruct e as [now|src dst v|f].
    - left. split; [reflexivity|discriminate].
    - left. destruct (move_frame (run st0 h) src dst v) as [-> _]. split; [reflexivity|discriminate].
    - cbn [tstep]. destruct (snd (call (run st0 h) f)) as [o|] eqn:E.
      + destruct (call_ok _ _ _ _ _ _ E) as [st1 [Hp Hok]].
        destruct (pre_frame _ _ _ Hp) as [Hs _]. rewrite <- Hs.
        assert (S : succeeds kslot ovf faucet (run st0 h) f) by (unfold succeeds; rewrite E; congruence).
        destruct (ok_role_word _ _ _ _ a Hok) as [[A [B C]]|[[A B]|[A B]]]; rewrite input_data in *.
        * left. split; [exact A|]. intros f' Ef _. injection Ef as <-. split; assumption.
        * right. exists f. split; [auto|]. split; [exact S|]. left. split; [exact B|exact A].
        * right. exists f. split; [auto|]. split; [exact S|]. right. split; [exact B|exact A].
      + left. rewrite (call_fail _ _ _ _ _ E). split; [reflexivity|].
        intros f' Ef S. injection Ef as <-. exfalso. apply S. exact E. }
  destruct K as [[A B]|[f [-> [S [[G A]|[R A]]]]]].
  - rewrite A. rewrite IH. split.
    + intros [h1 [m [h2 [E [G [S Nn]]]]]]. exists h1, m, (h2 ++ [e]).
      split; [rewrite E, <- app_assoc; reflexivity|]. split; [auto|]. split; [auto|].
      apply none_snoc; auto. intros f Ef Rf Sf.
      assert (X : run (run st0 (h1 ++ [EvCall m])) h2 = run st0 h).
      { rewrite E, <- run_app, <- app_assoc. reflexivity. }
      rewrite X in Sf. destruct (B f Ef Sf) as [_ Y]. auto.
    + intros [h1 [m [h2 [E [G [S Nn]]]]]]. destruct h2 as [|x h2 _] using rev_ind.
      { exfalso. apply app_inj_tail in E as [-> ->]. destruct (B m eq_refl S) as [Y _]. auto. }
      assert (E' : h ++ [e] = (h1 ++ EvCall m :: h2) ++ [x]) by (rewrite E, <- app_assoc; reflexivity).
      apply app_inj_tail in E' as [-> ->]. exists h1, m, h2.
      split; [auto|]. split; [auto|]. split; [auto|].
      intros p f q -> Pf. eapply Nn; [|exact Pf]. rewrite <- app_assoc. reflexivity.
  - rewrite A. split; [|intros _; discriminate]. intros _. exists h, f, []. split; [auto|].
    split; [auto|]. split; [auto|]. intros p g q X. destruct p; discriminate X.
  - rewrite A. split; [tauto|]. intros [h1 [m [h2 [E [G [S' Nn]]]]]]. exfalso.
    destruct h2 as [|x h2 _] using rev_ind.
    + apply app_inj_tail in E as [-> E]. injection E as ->.
      destruct G as [w [G _]]. destruct R as [w' [R _]].
      pose proof (sel_disj _ _ _ _ _ G R eq_refl eq_refl) as X. discriminate X.
    + assert (E' : h ++ [EvCall f] = (h1 ++ EvCall m :: h2) ++ [x]) by (rewrite E, <- app_assoc; reflexivity).
      apply app_inj_tail in E' as [-> <-]. apply (Nn h2 f []); auto.
      replace (run (run st0 (h1 ++ [EvCall m])) h2) with (run st0 (h1 ++ EvCall m :: h2)); auto.
      rewrite <- run_app, <- app_assoc. reflexivity.
Qed.

(* C39 timelock: the invariant (mainnet build) *)
Hypothesis MAIN : faucet = false.

Lemma mint_disj f w w' : calls1 (f_data f) SEL_MINT w -> calls1 (f_data f) SEL_CLAIM w' -> False.
Proof. intros H H'. pose proof (sel_disj _ _ _ _ _ H H' eq_refl eq_refl) as E. discriminate E. Qed.

Definition tl_inv (st0 : tstate) (h : list ev) : Prop :=
  let st := run st0 h in
  (forall a, a <> GOV -> t_sto st (amt a) = 0) /\
  (t_sto st (amt GOV) <> 0 ->
   exists h1 m h2 w, h = h1 ++ EvCall m :: h2 /\ calls1 (f_data m) SEL_MINT w /\
     uint w = t_sto st (amt GOV) /\ succeeds kslot ovf faucet (run st0 h1) m /\
     t_sto st (tim GOV) = t_now (run st0 h1) + 604800 /\
     none_succeeds kslot ovf faucet mint_or_claim (run st0 (h1 ++ [EvCall m])) h2).



Lemma mint_ok st f o : snd (call st f) = Some o -> forall w, calls1 (f_data f) SEL_MINT w ->
  t_now st < 2 ^ 64 ->
  let st' := fst (call st f) in
  acting f = GOV /\ faucet = false /\
  t_sto st' (amt GOV) = uint w /\ t_sto st' (tim GOV) = t_now st + 604800 /\
  (forall a, a <> GOV -> t_sto st' (amt a) = t_sto st (amt a)) /\
  supply st' = supply st /\ (forall a, t_bal st' a = t_bal st a).
Proof.
  intros E w Hw Hnow st'. destruct (call_ok _ _ _ _ _ _ E) as [st1 [Hp Hok]]. fold st' in Hok.
  destruct (pre_frame _ _ _ Hp) as [Hs [_ Hn]]. unfold supply.
  remember (input_of f) as i eqn:Ei.
  assert (Di : pi_data i = f_data f) by (rewrite Ei; apply input_data).
  assert (Ci : pi_caller i = acting f) by (rewrite Ei; apply input_caller).
  assert (Vi : pi_value i = 0 -> forall a, t_bal st1 a = t_bal st a).
  { intros V a. rewrite Ei in V. unfold pre_transfer in Hp. unfold input_of in V.
    destruct (f_kind f); cbn in V.
    - rewrite V in Hp. destruct (_ && _) in Hp; [discriminate Hp|].
      destruct (_ <? 0) in Hp; [discriminate Hp|]. cbv zeta in Hp.
      destruct (_ <? U256_LIM) in Hp; [|discriminate Hp]. injection Hp as <-.
      cbn [t_bal set_bal]. unfold upd. destruct (a =? PRE) eqn:EP.
      + apply N.eqb_eq in EP as ->. destruct (PRE =? f_self f) eqn:EF; [apply N.eqb_eq in EF as ->|]; lia.
      + destruct (a =? f_self f) eqn:EF; [apply N.eqb_eq in EF as ->|]; lia.
    - destruct (_ <? _) in Hp; [discriminate Hp|]. injection Hp as <-. reflexivity.
    - injection Hp as <-. reflexivity.
    - injection Hp as <-. reflexivity. }
  rewrite <- Di in Hw. rewrite <- Hs, <- Hn. rewrite <- Hn in Hnow. clear E. destruct Hok as
    [w' Hf Hc Hst Hv Hg Hgas
    |w' a Hc Hst Hv Hg Hgas Ha Ha0 Ht st3 Hov
    |w' Hc Hst Hv Hg Hgas Hb Hsup
    |Hc Hv Hgas
    |s v w' Hf Hsv Hc Hst Hv Hg Hgas
    |w' Hf Hc Hv Hgas
    |w1 w2 Hf Hc Hst Hv Hg Hgas Ha0 Hov].
  - rewrite (word_inj _ _ _ _ Hc Hw).
    cbn [t_sto t_bal emit sstore]. unfold upd.
    rewrite !N.eqb_refl, !slot_ne by lia.
    split; [congruence|]. split; [auto|]. split; [auto|]. split; [|split; [|split]].
    + unfold TIMELOCK, U256_LIM. apply N.mod_small.
      apply N.lt_trans with (2 ^ 64 + 604800); [lia|]. reflexivity.
    + intros a Ha. rewrite slot_eq by lia. apply N.eqb_neq in Ha. rewrite Ha.
      rewrite slot_ne by lia. reflexivity.
    + rewrite amt100, tim100. reflexivity.
    + apply Vi; auto.
  - pose proof (sel_disj _ _ _ _ _ Hc Hw eq_refl eq_refl) as X. discriminate X.
  - pose proof (sel_disj _ _ _ _ _ Hc Hw eq_refl eq_refl) as X. discriminate X.
  - destruct Hc as [r Hr]. destruct Hw as [_ [r' Hr']]. rewrite Hr in Hr'. discriminate Hr'.
  - rewrite MAIN in Hf. discriminate Hf.
  - rewrite MAIN in Hf. discriminate Hf.
  - rewrite MAIN in Hf. discriminate Hf.
Qed.

Lemma claim_ok st f o : snd (call st f) = Some o -> forall w, calls1 (f_data f) SEL_CLAIM w ->
  let st' := fst (call st f) in let r := addr w in
  acting f = GOV /\ t_sto st (amt r) <> 0 /\ t_sto st (tim r) <= t_now st /\
  t_sto st' (amt r) = 0 /\
  (forall a, a <> r -> t_sto st' (amt a) = t_sto st (amt a) /\ t_sto st' (tim a) = t_sto st (tim a)) /\
  supply st' = supply st + t_sto st (amt r) /\
  (t_bal st r + t_sto st (amt r) < U256_LIM -> t_bal st' r = t_bal st r + t_sto st (amt r)) /\
  (forall a, a <> r -> t_bal st' a = t_bal st a).
Proof.
  intros E w Hw st' r. destruct (call_ok _ _ _ _ _ _ E) as [st1 [Hp Hok]]. fold st' in Hok.
  destruct (pre_frame _ _ _ Hp) as [Hs [_ Hn]]. unfold supply.
  remember (input_of f) as i eqn:Ei.
  assert (Di : pi_data i = f_data f) by (rewrite Ei; apply input_data).
  assert (Ci : pi_caller i = acting f) by (rewrite Ei; apply input_caller).
  assert (Vi : pi_value i = 0 -> forall a, t_bal st1 a = t_bal st a).
  { intros V a. rewrite Ei in V. unfold pre_transfer in Hp. unfold input_of in V.
    destruct (f_kind f); cbn in V.
    - rewrite V in Hp. destruct (_ && _) in Hp; [discriminate Hp|].
      destruct (_ <? 0) in Hp; [discriminate Hp|]. cbv zeta in Hp.
      destruct (_ <? U256_LIM) in Hp; [|discriminate Hp]. injection Hp as <-.
      cbn [t_bal set_bal]. unfold upd. destruct (a =? PRE) eqn:EP.
      + apply N.eqb_eq in EP as ->. destruct (PRE =? f_self f) eqn:EF; [apply N.eqb_eq in EF as ->|]; lia.
      + destruct (a =? f_self f) eqn:EF; [apply N.eqb_eq in EF as ->|]; lia.
    - destruct (_ <? _) in Hp; [discriminate Hp|]. injection Hp as <-. reflexivity.
    - injection Hp as <-. reflexivity.
    - injection Hp as <-. reflexivity. }
  rewrite <- Di in Hw. rewrite <- Hs, <- Hn. clear E. destruct Hok as
    [w' Hf Hc Hst Hv Hg Hgas
    |w' a Hc Hst Hv Hg Hgas Ha Ha0 Ht st3 Hov
    |w' Hc Hst Hv Hg Hgas Hb Hsup
    |Hc Hv Hgas
    |s v w' Hf Hsv Hc Hst Hv Hg Hgas
    |w' Hf Hc Hv Hgas
    |w1 w2 Hf Hc Hst Hv Hg Hgas Ha0 Hov].
  - pose proof (sel_disj _ _ _ _ _ Hc Hw eq_refl eq_refl) as X. discriminate X.
  - assert (Ew : w' = w) by (apply (word_inj _ _ _ _ Hc Hw)). subst w'. fold r in Ha, Ht, st3 |- *. specialize (Vi Hv).
    subst st3. cbn [t_sto t_bal emit sstore balance_incr set_bal] in *. unfold upd in *.
    rewrite ?N.eqb_refl, ?amt100, ?tim100, ?amt_100, ?tim_100, ?slot_ne in * by lia.
    rewrite <- !Ha. split; [congruence|]. split; [auto|]. split; [auto|]. split; [auto|].
    split; [|split; [auto|split]].
    + intros x Hx. rewrite !slot_eq, !slot_ne, amt_100, tim_100 by lia.
      apply N.eqb_neq in Hx. rewrite Hx. auto.
    + rewrite <- (Vi r). intros Hlt. apply N.ltb_lt in Hlt. rewrite Hlt. reflexivity.
    + intros x Hx. apply N.eqb_neq in Hx. rewrite Hx. apply Vi.
  - pose proof (sel_disj _ _ _ _ _ Hc Hw eq_refl eq_refl) as X. discriminate X.
  - destruct Hc as [q Hr]. destruct Hw as [_ [r' Hr']]. rewrite Hr in Hr'. discriminate Hr'.
  - destruct Hsv as [[-> _]|[-> _]];
    (pose proof (sel_disj _ _ _ _ _ Hc Hw eq_refl eq_refl) as X; discriminate X).
  - pose proof (sel_disj _ _ _ _ _ Hc Hw eq_refl eq_refl) as X. discriminate X.
  - destruct Hc as [_ [_ [q Hr]]]. destruct Hw as [_ [r' Hr']]. rewrite Hr in Hr'. discriminate Hr'.
Qed.

Lemma tl_holds st0 : nothing_pending kslot st0 -> t_now st0 < 2 ^ 64 ->
  forall h, times_ok h -> tl_inv st0 h.
Proof.
  intros Hnp Hnow. induction h as [|e h IH] using rev_ind; intros Ht.
  { split; [intros a _; apply Hnp|]. intros H. exfalso. apply H, Hnp. }
  assert (Ht' : times_ok h) by (intros t H; apply Ht, in_app_iff; auto).
  destruct (IH Ht') as [I1 I2]. unfold tl_inv. rewrite run_snoc.
  pose proof (step_now_bound st0 h Hnow Ht') as Hb.
  set (st := run st0 h) in *.
  assert (D : (exists f, e = EvCall f /\ mint_or_claim f /\ succeeds kslot ovf faucet st f) \/
     (forall f, e = EvCall f -> mint_or_claim f -> ~ succeeds kslot ovf faucet st f)).
  { destruct e as [now|src dst v|f]; [right; discriminate|right; discriminate|].
    destruct (snd (call st f)) as [o|] eqn:E.
    - destruct (calls_dec f) as [M|NM].
      + left. exists f. split; auto. split; auto. unfold succeeds. rewrite E. congruence.
      + right. intros f' Ef Mf. injection Ef as <-. contradiction.
    - right. intros f' Ef _. injection Ef as <-. unfold succeeds. rewrite E. tauto. }
  destruct D as [[f [-> [Mf Sf]]]|Nf].
  - destruct (succ_some _ _ Sf) as [o E]. cbn [tstep]. destruct Mf as [[w Hw]|[w Hw]].
    + destruct (mint_ok _ _ _ E w Hw Hb) as [_ [_ [A [B [C _]]]]]. split.
      * intros a Ha. rewrite C by auto. apply I1; auto.
      * intros _. exists h, f, [], w. split; [reflexivity|]. split; [auto|]. split; [auto|].
        split; [auto|]. split; [auto|]. intros p x q Hx. destruct p; discriminate Hx.
    + destruct (claim_ok _ _ _ E w Hw) as [_ [A [B [C [D _]]]]].
      assert (R : addr w = GOV).
      { destruct (N.eq_dec (addr w) GOV) as [|Hne]; auto. exfalso. apply A. apply I1; auto. }
      rewrite R in *. split.
      * intros a Ha. destruct (D a Ha) as [-> _]. apply I1; auto.
      * intros X. exfalso. apply X. exact C.
  - pose proof (step_pending st e Nf) as SP. split.
    + intros a Ha. destruct (SP a) as [-> _]. apply I1; auto.
    + destruct (SP GOV) as [-> ->]. intros X. destruct (I2 X) as [h1 [m [h2 [w [A [B [C [D [F G]]]]]]]]].
      exists h1, m, (h2 ++ [e]), w. split; [rewrite A, <- app_assoc; reflexivity|].
      split; [auto|]. split; [auto|]. split; [auto|]. split; [auto|].
      apply none_snoc; auto. intros f Ef Mf.
      assert (R : run (run st0 (h1 ++ [EvCall m])) h2 = st).
      { unfold st. rewrite A, <- run_app, <- app_assoc. reflexivity. }
      rewrite R. apply Nf; auto.
Qed.

End P2.
