(* A temporary ban ends with an Unbanned event, unless a call lifted it; and a peer recorded as banned is
   announced as banned. *)
From Coq Require Import Sorting.Sorted.
From Verif Require Import Util AMap PeersModel PeersSpec PeersProofs PeersProofs2 PeersProofs3 PeersProofs4 PeersProofs6 CacheModel CacheSpec CacheProofs MgrModel MgrSpec MgrProofs MgrProofs2 MgrProofs3.
Local Open Scope N_scope.

Record UX (d : N) (n : nat) (q : pid) (t : N) (m : mgr) : Prop := mkUX {
  u_jx : JX d n anyone t m;
  u_in : cache_contains q (m_temp m) = true \/ In (PUnbanned q) (m_events m) }.
Lemma UX_mono d n q t t' m : t <= t' -> UX d n q t m -> UX d n q t' m.
Proof. intros H [A B]. constructor; [eapply JX_mono; eauto|auto]. Qed.
Lemma UX_vis d n q t m m' : vis m' = vis m -> UX d n q t m -> UX d n q t m'.
Proof.
  intros E [A B]. constructor; [eapply JX_vis; eauto|]. unfold vis in E. injection E as E1 E2 E3 E4. rewrite E1, E4. exact B.
Qed.
Lemma UX_append d n q t m l : UX d n q t m -> JX d n anyone t (with_events (m_events m ++ l) m) -> UX d n q t (with_events (m_events m ++ l) m).
Proof. intros [A B] J. constructor; [exact J|]. cbn. rewrite in_app_iff. tauto. Qed.
Lemma JX_any d n X t m : JX d n X t m -> JX d n anyone t m.
Proof. apply JX_weak. unfold anyone. auto. Qed.
Lemma UX_push d n q t m e : silent e = true -> UX d n q t m -> UX d n q t (push e m).
Proof. intros He H. apply UX_append; auto. apply (JX_push d n anyone t m e He). apply H. Qed.
Lemma UX_unban d n q t m p : UX d n q t m -> UX d n q t (push (PUnbanned p) m).
Proof. intros H. apply UX_append; auto. apply (JX_unban' d n anyone t m p). apply H. Qed.

Lemma temp_ban_keeps d n t now p m q : JX d n anyone t m -> t <= now -> cache_contains q (m_temp m) = true ->
  cache_contains q (m_temp (temp_ban now p m)) = true \/ In (PUnbanned q) (m_events (temp_ban now p m)).
Proof.
  intros J Hn Hq.
  assert (J1 : JX d n none t (mkMgr (m_local m) (m_store m) (m_known m) (m_pinned m) [] (m_dials m) (m_temp m) (m_disco m) [q] false)).
  { constructor; [apply J|apply J|apply J|reflexivity|]. intros x Hx. left. cbn in Hx. unfold blacklisted in Hx. cbn in Hx. rewrite orb_false_r in Hx. apply N.eqb_eq in Hx. subst x. exact Hq. }
  destruct (temp_ban_ok d n none t now p _ J1 Hn) as [[_ _ _ _ F] _].
  unfold temp_ban in *. cbn [m_temp] in F. destruct (cache_insert now p (m_temp m)) as [[c [b [o|]]]|].
  - specialize (F q). unfold blacklisted in F. cbn in F. cbn. rewrite in_app_iff. destruct (N.eqb_spec o q) as [Heq|Hne]; [rewrite Heq; cbn; auto|].
    rewrite N.eqb_refl in F. destruct (F eq_refl) as [G|[]]. left. exact G.
  - specialize (F q). unfold blacklisted in F. cbn in F. cbn. rewrite N.eqb_refl in F. destruct (F eq_refl) as [G|[]]. left. exact G.
  - left. exact Hq.
Qed.
Lemma temp_ban_events now p m e : In e (m_events m) -> In e (m_events (temp_ban now p m)).
Proof. unfold temp_ban. destruct (cache_insert now p (m_temp m)) as [[c [b [o|]]]|]; auto. cbn. rewrite in_app_iff. auto. Qed.
Lemma UX_temp_ban d n q t now p m : UX d n q t m -> t <= now ->
  UX d n q now (temp_ban now p m) /\ cache_contains p (m_temp (temp_ban now p m)) = true.
Proof.
  intros [J U] Hn. destruct (temp_ban_ok d n anyone t now p m J Hn) as [J1 P]. split; [|exact P].
  constructor; [exact J1|]. destruct U as [U|U]; [eapply temp_ban_keeps; eauto|right; apply temp_ban_events; auto].
Qed.
Lemma UX_ban d n q t p m : UX d n q t m -> cache_contains p (m_temp m) = true -> UX d n q t (process_ban p m).
Proof.
  intros [J U] Hp. constructor; [apply JX_ban; auto|]. unfold process_ban. cbn. destruct (N.eq_dec q p) as [->|Hne]; [auto|].
  destruct U as [U|U]; auto. right. rewrite in_app_iff. left. apply filter_In. split; auto. cbn.
  apply negb_true_iff, N.eqb_neq. auto.
Qed.
Lemma UX_action d n q t now p a m : UX d n q t m -> t <= now -> UX d n q now (apply_action now p a m).
Proof.
  intros H Hn. destruct (UX_temp_ban d n q t now p m H Hn) as [H1 H2]. destruct a; cbn [apply_action].
  - apply UX_ban; auto.
  - eapply UX_mono; eauto.
  - apply UX_push; auto.
  - apply UX_push; auto.
  - apply UX_unban. eapply UX_mono; eauto.
Qed.
Lemma UX_actions d n q now l : forall t m, UX d n q t m -> t <= now -> UX d n q now (apply_actions now l m).
Proof.
  induction l as [|[p a] l IH]; intros t m H Hn.
  - eapply UX_mono; eauto.
  - change (apply_actions now ((p, a) :: l) m) with (apply_actions now l (apply_action now p a m)).
    eapply IH; [eapply UX_action; eauto|lia].
Qed.
Lemma UX_chase d n q t l m : UX d n q t m -> UX d n q t (chase l m).
Proof.
  intros H. unfold chase. match goal with |- context [match ?x with [] => _ | _ => _ end] => destruct x end; auto.
  apply UX_push; auto.
Qed.
Lemma UX_temp_unban d n q t p m : UX d n q t m -> q <> p -> UX d n q t (temp_unban p m).
Proof.
  intros [J U] Hne. constructor; [eapply JX_any, temp_unban_ok; eauto|]. destruct U as [U|U].
  - left. destruct J as [A B C D F]. unfold temp_unban. destruct (remove_ok (m_temp m) t p A) as (c' & b & E & A' & B' & C' & L & Hb). rewrite E.
    cbn. apply (ci_contains _ _ _ A'). rewrite L. apply map_fst_without. split; auto. apply (ci_contains _ _ _ A); auto.
  - right. destruct (temp_unban_vis p m) as (_ & -> & _). exact U.
Qed.
Lemma UX_forgive_temp d n q t l : forall m, UX d n q t m -> (forall k i, In k l -> get N.eqb k (m_known m) = Some i -> i_key i <> q) ->
  UX d n q t (forgive_temp l m) /\ m_known (forgive_temp l m) = m_known m.
Proof.
  induction l as [|k l IH]; intros m H Hl; [auto|].
  change (forgive_temp (k :: l) m) with (forgive_temp l (match auth_to_peer k m with Some (p, _) => temp_unban p m | None => m end)).
  unfold auth_to_peer. destruct (get N.eqb k (m_known m)) as [i|] eqn:E.
  - destruct (temp_unban_vis (i_key i) m) as (_ & _ & V3). destruct (IH (temp_unban (i_key i) m)) as [G1 G2].
    + apply UX_temp_unban; auto. intros ->. apply (Hl k i); cbn; auto.
    + rewrite V3. intros k' i' Hk Hi. apply (Hl k' i'); cbn; auto.
    + split; [exact G1|congruence].
  - apply IH; auto. intros k' i' Hk Hi. apply (Hl k' i'); cbn; auto.
Qed.
Lemma UX_disconnect d n q t g now p px m : UX d n q t m -> t <= now -> UX d n q now (disconnect g now p px m).
Proof.
  intros H Hn. unfold disconnect. set (e := if px then _ else _). destruct (update_status _ _ _ _ _) as [s a].
  eapply UX_action; [|exact Hn]. apply (UX_vis d n q t (push e m)); [reflexivity|]. apply UX_push; [|exact H]. unfold e. destruct px; reflexivity.
Qed.
Lemma UX_prune_loop d n q g now l : forall e m, UX d n q now m -> UX d n q now (prune_loop g now e l m).
Proof. induction l as [|p l IH]; intros [|e] m H; cbn [prune_loop]; auto. apply IH. eapply UX_disconnect; eauto. lia. Qed.
Lemma UX_disconnected d n q t g now p m : UX d n q t m -> t <= now -> UX d n q now (on_disconnected g now p m).
Proof.
  intros H Hn. unfold on_disconnected. destruct (register_disconnected_a _ _ _ _) as [[s a] pr].
  assert (G : UX d n q now (with_store s m)) by (apply (UX_vis d n q now m); [reflexivity|eapply UX_mono; eauto]).
  assert (G2 : UX d n q now (match a with ABan => apply_action now p a (with_store s m) | _ => with_store s m end)).
  { destruct a; auto. eapply UX_action; [exact G|lia]. }
  apply UX_append; auto. apply JX_unbans. apply G2.
Qed.
Lemma UX_expire d n q t now m : UX d n q t m -> t <= now -> UX d n q now (unban_expired now m).
Proof.
  intros [J U] Hn. constructor; [apply JX_expire with (t := t); auto|].
  destruct J as [A B C D F]. unfold unban_expired. pose proof (beat_ok (m_temp m) t now A Hn) as H.
  destruct (cache_beat now (m_temp m)) as [c' out]. destruct H as (A' & B' & C' & L & O). rewrite pushes_events. cbn [m_temp with_events with_temp m_events].
  rewrite in_app_iff. destruct U as [U|U]; auto. apply (ci_contains _ _ _ A) in U. apply in_map_iff in U. destruct U as (e & <- & He).
  destruct (now <? snd e + c_dur (m_temp m)) eqn:Q.
  - left. apply (ci_contains _ _ _ A'). rewrite L. apply in_map. unfold unexpired. apply filter_In. auto.
  - right. right. apply in_map. rewrite O. apply in_map. apply filter_In. rewrite Q. auto.
Qed.
Lemma UX_discovery d n q t g is1 is2 m : UX d n q t m -> UX d n q t (discovery_beat g is1 is2 m).
Proof.
  intros H. unfold discovery_beat.
  set (m1 := fold_left _ (to_dial g is1 m) _).
  assert (G : UX d n q t m1) by (eapply UX_vis; [|exact H]; unfold m1; rewrite dials_vis; reflexivity).
  destruct (_ <? _)%nat; [apply (UX_vis d n q t m1); [reflexivity|exact G]|]. destruct (_ <? _)%nat; [|apply (UX_vis d n q t m1); [reflexivity|exact G]].
  apply (UX_vis d n q t (push PDiscovery m1)); [reflexivity|]. apply (UX_push d n q t m1 PDiscovery eq_refl G).
Qed.
Lemma UX_cache_known d n q t g now k i m : UX d n q t m -> t <= now -> UX d n q now (cache_known g now k i m).
Proof.
  intros H Hn. unfold cache_known. match goal with |- context [let '(s, acts) := ?x in _] => destruct x as [s a] end.
  eapply UX_actions; [|exact Hn]. eapply UX_vis; [|exact H]. reflexivity.
Qed.
Lemma mstep_UX g d n q t m e : UX d n q t m -> on_time t e -> ~ lifted m e q -> (forall now, e <> MPoll now) ->
  UX d n q (later t e) (mstep g m e).
Proof.
  intros H Ht Hl Hp.
  assert (S : forall t' m', vis m' = vis m -> t <= t' -> UX d n q t' m').
  { intros t' m' Ev Hl'. apply (UX_vis d n q t' m); auto. eapply UX_mono; eauto. }
  destruct e; cbn [mstep later at_time on_time lifted] in *.
  - unfold add_trusted_and_dial. eapply UX_vis; [apply dial_vis|].
    eapply UX_vis with (m := temp_unban (i_key i) (with_store (add_trusted (g_store g) now k (i_key i) (m_store m)) m)); [reflexivity|].
    apply UX_temp_unban; auto.
  - apply S; [apply dial_vis|lia].
  - unfold penalize. destruct (is_local m p); [apply S; auto|]. destruct (process_penalty _ _ _ _ _) as [s a].
    eapply UX_action; [apply (UX_vis d n q t m); [reflexivity|exact H]|exact Ht].
  - eapply UX_disconnect; eauto.
  - unfold pending_out. destruct op as [p|]; [|apply S; auto]. destruct (is_local m p); [apply S; auto|].
    destruct (dialing_now m p); [apply S; auto|]. destruct (mgr_can_dial g m p); apply S; auto.
  - destruct (established g m p a incoming); [|apply S; auto]. unfold on_established.
    assert (G : UX d n q t (register_connection g now p a incoming m)).
    { unfold register_connection. destruct (peer_banned _ _ _); [auto|]. apply (UX_vis d n q t m); [reflexivity|exact H]. }
    destruct (_ && _); [eapply UX_disconnect; eauto|]. apply UX_push; auto. eapply UX_mono; eauto.
  - unfold on_closed. destruct (0 <? remaining)%nat; [apply S; auto|].
    destruct (conn_or_disconnecting m p); eapply UX_disconnected; eauto. apply UX_push; auto.
  - unfold on_dial_failure. destruct op as [p|]; [|apply S; auto]. destruct (is_connected m p); [apply S; auto|].
    eapply UX_disconnected; eauto.
  - unfold on_exchange. destruct (_ <? _)%nat; apply S; auto; lia.
  - apply S; [reflexivity|lia].
  - unfold on_committees.
    assert (H1 : UX d n q t (chase d0 (chase b m))) by (apply UX_chase, UX_chase; auto).
    assert (K1 : m_known (chase d0 (chase b m)) = m_known m) by (rewrite !chase_known; auto).
    set (m1 := chase d0 (chase b m)) in *.
    assert (Hn : forall l, (forall k, In k l -> In k (a ++ b ++ d0)) -> forall k i, In k l -> get N.eqb k (m_known m1) = Some i -> i_key i <> q).
    { intros l Hi k i Hk Hg Hq. apply Hl. exists k, i. rewrite <- K1. auto. }
    destruct (UX_forgive_temp d n q t a m1 H1) as (J2 & K2); [apply Hn; intros; rewrite !in_app_iff; auto|].
    destruct (UX_forgive_temp d n q t b _ J2) as (J3 & K3); [rewrite K2; apply Hn; intros; rewrite !in_app_iff; auto|].
    destruct (UX_forgive_temp d n q t d0 _ J3) as (J4 & K4); [rewrite K3, K2; apply Hn; intros; rewrite !in_app_iff; auto|].
    set (m2 := forgive_temp d0 _) in *. destruct (forgive_a _ _ _ _) as [s acts].
    eapply UX_vis with (m := apply_actions now acts (with_store s m2)); [reflexivity|].
    eapply UX_actions; [|exact Ht]. apply (UX_vis d n q t m2); [reflexivity|exact J4].
  - unfold on_prepare. destruct (UX_forgive_temp d n q t l m H) as (J2 & K2).
    { intros k i Hk Hi Hq. apply Hl. exists k, i. auto. }
    destruct (forgive_a _ _ _ _) as [s acts]. eapply UX_actions; [|exact Ht]. apply (UX_vis d n q t (forgive_temp l m)); [reflexivity|exact J2].
  - unfold add_known. eapply UX_cache_known; [|exact Ht]. apply (UX_vis d n q t m); [reflexivity|exact H].
  - unfold add_restored. eapply UX_cache_known; eauto.
  - unfold add_bootstrap. destruct (get _ _ _); [apply S; auto|]. eapply UX_cache_known; [|exact Ht]. apply (UX_vis d n q t m); [reflexivity|exact H].
  - unfold add_discovered. destruct (negb _); [apply S; auto|]. destruct (stale _ _ _); [apply S; auto|]. eapply UX_cache_known; eauto.
  - unfold add_self_advertised. destruct (in_slots _ _).
    + destruct (stale _ _ _); [apply S; auto|]. eapply UX_cache_known; eauto.
    + destruct (N.eqb _ _); apply S; auto.
  - unfold find_authorities. apply UX_push; auto.
  - cbn [committee_rpcs fst]. apply UX_chase; auto.
  - unfold mgr_heartbeat. destruct (heartbeat_a _ _ _) as [s acts]. apply UX_discovery.
    eapply UX_expire; [|apply N.le_refl].
    assert (G : UX d n q now (apply_actions now acts (with_store s m))).
    { eapply UX_actions; [|exact Ht]. apply (UX_vis d n q t m); [reflexivity|exact H]. }
    unfold prune_connected. destruct (_ =? 0)%nat; auto. apply UX_prune_loop; auto.
  - destruct (Hp now eq_refl).
  - apply S; [reflexivity|lia].
Qed.
