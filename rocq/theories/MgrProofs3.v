(* Blacklisted peers are temporarily banned peers, as long as bans are lifted cleanly. *)
From Coq Require Import Sorting.Sorted.
From Verif Require Import Util AMap PeersModel PeersSpec PeersProofs PeersProofs2 PeersProofs3 PeersProofs4 PeersProofs6 CacheModel CacheSpec CacheProofs MgrModel MgrSpec MgrProofs MgrProofs2.
Local Open Scope N_scope.

Definition none : pid -> Prop := fun _ => False.
Lemma apply_action_bl now p a m q : a = AUnban \/ a = ANone -> blacklisted (apply_action now p a m) q = true -> blacklisted m q = true.
Proof.
  intros [-> | ->]; cbn [apply_action]; auto. rewrite bl_push. destruct (N.eqb p q); auto. discriminate.
Qed.
Lemma apply_actions_bl now l q : forall m, (forall e, In e l -> snd e = AUnban \/ snd e = ANone) ->
  blacklisted (apply_actions now l m) q = true -> blacklisted m q = true.
Proof.
  induction l as [|e l IH]; intros m Hl H; [exact H|].
  change (blacklisted (apply_actions now l (apply_action now (fst e) (snd e) m)) q = true) in H.
  apply IH in H; [|intros; apply Hl; right; auto]. eapply apply_action_bl; [|exact H]. apply Hl. left. auto.
Qed.
Lemma unban_act c now p s : snd (update_status c now p NUnbanned s) = AUnban \/ snd (update_status c now p NUnbanned s) = ANone.
Proof.
  unfold update_status. destruct (ensure_exists c now p NUnbanned s) as [s1 cs]. unfold to_unbanned.
  destruct (rec_of (identity_for s1 p) s1); [|auto]. destruct cs as [| [] | | | |]; cbn; auto.
Qed.
Lemma forgive_acts_kind c now l s : forall e, In e (snd (forgive_a c now l s)) -> snd e = AUnban \/ snd e = ANone.
Proof.
  unfold forgive_a.
  assert (G : forall acc : store * list (pid * action), (forall e, In e (snd acc) -> snd e = AUnban \/ snd e = ANone) ->
    forall e, In e (snd (fold_left (fun acc k => (forgive c now (fst acc) k, snd acc ++ forgive_act c now (fst acc) k)) l acc)) -> snd e = AUnban \/ snd e = ANone).
  { induction l as [|k l IH]; intros acc Ha e He; cbn [fold_left] in He; [auto|]. eapply IH; [|exact He]. cbn [snd].
    intros x Hx. apply in_app_iff in Hx. destruct Hx as [Hx|Hx]; [auto|]. unfold forgive_act in Hx.
    destruct (rec_of (Confirmed k) (fst acc)) as [r|]; [|destruct Hx]. destruct (p_net r) as [p|]; [|destruct Hx].
    destruct (ensure_exists c now p NUnbanned (fst acc)) as [s1 st].
    destruct st as [| [] | | | |]; try (destruct Hx as [<-|[]]; apply unban_act); destruct Hx. }
  apply G. intros e [].
Qed.
Lemma prep_clean d n t now m m2 s acts l : JX d n (fun p => False \/ exists k i, In k l /\ get N.eqb k (m_known m) = Some i /\ i_key i = p) t m2 ->
  t <= now -> Inv false false (m_store m) -> (forall k, In k l -> lifts_clean m k) ->
  (forall p, blacklisted m2 p = blacklisted m p) ->
  (forall k r t p, In k l -> rec_of (Confirmed k) (m_store m) = Some r -> p_net r = Some p -> p_status r = Banned t -> In (p, AUnban) acts) ->
  (forall e, In e acts -> snd e = AUnban \/ snd e = ANone) ->
  JX d n none now (apply_actions now acts (with_store s m2)).
Proof.
  intros J Hn HI Hc Hb Ha Hk. eapply JX_weak; [|eapply JX_actions; [apply (JX_vis d n _ t m2); [reflexivity|exact J]|exact Hn]].
  cbn. intros p Hp [[Hx|(k & i & Hkl & Hi & <-)] Hno]; [destruct Hx|]. apply apply_actions_bl in Hp; auto.
  assert (Hp2 : blacklisted m (i_key i) = true) by (rewrite <- Hb; exact Hp).
  destruct (Hc k Hkl i Hi Hp2) as (r & t0 & Hr & Hnet & Hs). apply Hno. eapply Ha; eauto.
Qed.
Lemma forgive_temp_bl l m p : m_black (forgive_temp l m) = m_black m -> m_events (forgive_temp l m) = m_events m -> blacklisted (forgive_temp l m) p = blacklisted m p.
Proof. intros. apply bl_vis; auto. Qed.
Lemma mstep_clean g d n t m e : JX d n none t m -> Inv false false (m_store m) -> on_time t e -> clean_call m e ->
  JX d n none (later t e) (mstep g m e).
Proof.
  intros H HI Ht Hc. pose proof (mstep_JX g d n none t m e H Ht) as G.
  destruct e; try (eapply JX_weak; [|exact G]; cbn; tauto); cbn [clean_call later at_time on_time] in *.
  - eapply JX_weak; [|exact G]. cbn [lifted none]. intros p Hp [Hx|Hx]; [destruct Hx|subst p].
    assert (E : blacklisted (mstep g m (MTrusted now k i)) (i_key i) = blacklisted m (i_key i)).
    { cbn [mstep]. unfold add_trusted_and_dial. match goal with |- blacklisted (dial_peer ?a ?b ?c) _ = _ => pose proof (dial_vis a b c) as V end.
      unfold vis in V. injection V as _ _ V1 V2. rewrite (bl_vis _ _ _ V1 V2).
      destruct (temp_unban_vis (i_key i) (with_store (add_trusted (g_store g) now k (i_key i) (m_store m)) m)) as (U1 & U2 & _).
      apply bl_vis; cbn [m_black m_events with_known with_pinned]; [rewrite U1|rewrite U2]; reflexivity. }
    congruence.
  - clear G. cbn [mstep]. unfold on_committees.
    assert (H1 : JX d n none t (chase d0 (chase b m))) by (apply JX_chase, JX_chase; auto).
    assert (K1 : m_known (chase d0 (chase b m)) = m_known m) by (rewrite !chase_known; auto).
    assert (B1 : forall p, blacklisted (chase d0 (chase b m)) p = blacklisted m p) by (intros; rewrite !chase_bl; auto).
    assert (S1 : m_store (chase d0 (chase b m)) = m_store m) by (rewrite !chase_store; auto).
    set (m1 := chase d0 (chase b m)) in *.
    destruct (forgive_temp_ok d n a none t m1 H1) as (J2 & P2 & Q2 & K2).
    destruct (forgive_temp_ok d n b _ t _ J2) as (J3 & P3 & Q3 & K3).
    destruct (forgive_temp_ok d n d0 _ t _ J3) as (J4 & P4 & Q4 & K4).
    assert (S2 : m_store (forgive_temp d0 (forgive_temp b (forgive_temp a m1))) = m_store m) by (rewrite !forgive_temp_store; auto).
    set (m2 := forgive_temp d0 _) in *. rewrite S2.
    set (s0 := mkStore _ _ a b d0 _ _ _).
    assert (HI0 : Inv false false s0) by exact HI.
    pose proof (forgive_acts (g_store g) now (a ++ b ++ d0) s0) as FA.
    pose proof (forgive_acts_kind (g_store g) now (a ++ b ++ d0) s0) as FK.
    destruct (forgive_a _ _ _ s0) as [s acts]. cbn [snd] in FA, FK.
    eapply JX_vis with (m := apply_actions now acts (with_store s m2)); [reflexivity|].
    eapply (prep_clean d n t now m m2 s acts (a ++ b ++ d0)); eauto.
    + eapply JX_weak; [|exact J4]. rewrite K3, K2, K1. cbn. intros p _ [[[Hx|Hx]|Hx]|Hx]; [destruct Hx|right..];
        destruct Hx as (k & i & Hk & Hi & Hp); exists k, i; rewrite !in_app_iff; auto.
    + intros p. rewrite <- B1. apply bl_vis; congruence.
  - clear G. cbn [mstep]. unfold on_prepare. destruct (forgive_temp_ok d n l none t m H) as (J2 & P2 & Q2 & K2).
    pose proof (forgive_acts (g_store g) now l (m_store (forgive_temp l m))) as FA.
    pose proof (forgive_acts_kind (g_store g) now l (m_store (forgive_temp l m))) as FK.
    rewrite forgive_temp_store in *. destruct (forgive_a _ _ _ _) as [s acts]. cbn [snd] in FA, FK.
    eapply (prep_clean d n t now m (forgive_temp l m) s acts l); eauto. intros p. apply bl_vis; auto.
Qed.

Lemma JX_new d n p : JX d (Nat.max n 1) none 0 (mgr_new p d n).
Proof. constructor; [apply ci_new|reflexivity|reflexivity|reflexivity|cbn; discriminate]. Qed.
Lemma mrun_clean g d n l : forall m t, JX d n none t m -> Inv false false (m_store m) -> forward_from t l -> clean_run g m l ->
  exists t', JX d n none t' (mrun g l m) /\ Inv false false (m_store (mrun g l m)) /\ forall l2, forward_from t (l ++ l2) -> forward_from t' l2.
Proof.
  induction l as [|e l IH]; intros m t H HI Hf Hc; cbn.
  - exists t. auto.
  - destruct Hc as [Hc1 Hc2]. assert (Ht : on_time t e /\ forward_from (later t e) l).
    { cbn in Hf. unfold on_time, later. destruct (at_time e); tauto. }
    destruct (IH (mstep g m e) (later t e)) as (t' & A & B & C); try tauto.
    + apply mstep_clean; tauto.
    + apply mstep_inv; auto.
    + exists t'. split; [exact A|]. split; [exact B|]. intros l2 Hl. apply C. unfold later. destruct (at_time e); tauto.
Qed.
(* without any assumption on lifting: the cache itself *)
Definition anyone : pid -> Prop := fun _ => True.
Lemma mrun_any g d n l : forall m t, JX d n anyone t m -> forward_from t l ->
  exists t', JX d n anyone t' (mrun g l m) /\ forall l2, forward_from t (l ++ l2) -> forward_from t' l2.
Proof.
  induction l as [|e l IH]; intros m t H Hf; cbn.
  - exists t. auto.
  - assert (Ht : on_time t e /\ forward_from (later t e) l).
    { cbn in Hf. unfold on_time, later. destruct (at_time e); tauto. }
    destruct (IH (mstep g m e) (later t e)) as (t' & A & C); try tauto.
    + eapply JX_weak; [|apply mstep_JX; [exact H|tauto]]. unfold anyone. auto.
    + exists t'. split; [exact A|]. intros l2 Hl. apply C. unfold later. destruct (at_time e); tauto.
Qed.
