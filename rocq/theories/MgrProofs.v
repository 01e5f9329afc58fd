(* The peer store inside the manager only ever changes by the store's own operations, so everything
   proved about reachable stores (C49, C50) holds of every reachable manager. *)
From Verif Require Import Util AMap PeersModel PeersSpec PeersProofs PeersProofs2 PeersProofs3 PeersProofs4 PeersProofs6 CacheModel CacheSpec CacheProofs MgrModel.
Local Open Scope nat_scope.

Definition reaches (c : cfg) (s s' : store) : Prop := exists l, s' = run c l s.
Lemma reaches_refl c s : reaches c s s.
Proof. exists []. reflexivity. Qed.
Lemma reaches_trans c a b d : reaches c a b -> reaches c b d -> reaches c a d.
Proof. intros [l1 ->] [l2 ->]. exists (l1 ++ l2). unfold run. rewrite fold_left_app. reflexivity. Qed.
Lemma reaches_step c s e : reaches c s (step c s e).
Proof. exists [e]. reflexivity. Qed.

(* ---------- projections of the action-carrying versions ---------- *)
Lemma status_all_a_fst c now ns l : forall s acc,
  fst (fold_left (fun acc p => let '(s', a) := update_status c now p ns (fst acc) in (s', snd acc ++ [(p, a)])) l (s, acc)) =
  status_all c now ns l s.
Proof.
  induction l as [|p l IH]; intros s acc; cbn [fold_left]; [reflexivity|].
  cbn [fst snd]. unfold status_all. cbn [fold_left]. fold (status_all c now ns l (fst (update_status c now p ns s))).
  destruct (update_status c now p ns s) as [s' a]. rewrite IH. reflexivity.
Qed.
Lemma heartbeat_a_fst c now s : fst (heartbeat_a c now s) = heartbeat c now s.
Proof. unfold heartbeat_a, heartbeat, status_all_a. apply status_all_a_fst. Qed.
Lemma reg_disc_a_eq c now p s : let '(s', a, _) := register_disconnected_a c now p s in (s', a) = register_disconnected c now p s.
Proof. unfold register_disconnected_a, register_disconnected. destruct (update_status c now p NDisconnected s). reflexivity. Qed.
Lemma forgive_a_fst c now l s : fst (forgive_a c now l s) = fold_left (forgive c now) l s.
Proof.
  unfold forgive_a. change s with (fst (s, @nil (pid * action))) at 2. generalize (s, @nil (pid * action)).
  induction l as [|k l IH]; intros acc; cbn [fold_left]; [reflexivity|]. rewrite IH. reflexivity.
Qed.

(* ---------- what each helper leaves alone ---------- *)
Lemma temp_ban_store now p m : m_store (temp_ban now p m) = m_store m.
Proof. unfold temp_ban. destruct (cache_insert now p (m_temp m)) as [[t [b [o|]]]|]; reflexivity. Qed.
Lemma temp_unban_store p m : m_store (temp_unban p m) = m_store m.
Proof. unfold temp_unban. destruct (cache_remove p (m_temp m)) as [[t b]|]; reflexivity. Qed.
Lemma apply_action_store now p a m : m_store (apply_action now p a m) = m_store m.
Proof. destruct a; cbn; rewrite ?temp_ban_store; reflexivity. Qed.
Lemma apply_actions_store now l : forall m, m_store (apply_actions now l m) = m_store m.
Proof.
  induction l as [|e l IH]; intros m; [reflexivity|]. change (m_store (apply_actions now l (apply_action now (fst e) (snd e) m)) = m_store m).
  rewrite IH. apply apply_action_store.
Qed.
Lemma dial_store p addrs m : m_store (dial_peer p addrs m) = m_store m.
Proof. unfold dial_peer. destruct (is_local m p); auto. destruct (get_peer (m_store m) p) as [r|]; auto. destruct (p_status r); reflexivity. Qed.
Lemma forgive_temp_store l : forall m, m_store (forgive_temp l m) = m_store m.
Proof.
  induction l as [|k l IH]; intros m; [reflexivity|]. 
  change (m_store (forgive_temp l (match auth_to_peer k m with Some (p, _) => temp_unban p m | None => m end)) = m_store m). rewrite IH.
  destruct (auth_to_peer k m) as [[p a]|]; auto. apply temp_unban_store.
Qed.
Lemma chase_store l m : m_store (chase l m) = m_store m.
Proof. unfold chase. match goal with |- context [match ?x with [] => _ | _ => _ end] => destruct x end; reflexivity. Qed.
Lemma pushes_store f (l : list pid) : forall m, m_store (fold_left (fun m p => push (f p) m) l m) = m_store m.
Proof. induction l as [|p l IH]; intros m; cbn [fold_left]; [reflexivity|]. rewrite IH. reflexivity. Qed.
Lemma unban_expired_store now m : m_store (unban_expired now m) = m_store m.
Proof. unfold unban_expired. destruct (cache_beat now (m_temp m)) as [t out]. rewrite (pushes_store PUnbanned). reflexivity. Qed.
Lemma dials_store l : forall m, m_store (fold_left (fun m (e : pid * list maddr) => dial_peer (fst e) (snd e) m) l m) = m_store m.
Proof. induction l as [|p l IH]; intros m; cbn [fold_left]; [reflexivity|]. rewrite IH. apply dial_store. Qed.
Lemma discovery_beat_store g is1 is2 m : m_store (discovery_beat g is1 is2 m) = m_store m.
Proof.
  unfold discovery_beat. destruct (max_discovery g <? _); [|destruct (_ <? max_discovery g)]; cbn [m_store with_disco push with_events]; rewrite dials_store; reflexivity.
Qed.
Lemma disconnect_store g now p px m :
  m_store (disconnect g now p px m) = step (g_store g) (m_store m) (EDisconnect now p).
Proof.
  unfold disconnect. cbn [push with_events m_store step].
  destruct (update_status (g_store g) now p (NDisconnecting false) (m_store m)) as [s a] eqn:E.
  rewrite apply_action_store. reflexivity.
Qed.
Lemma prune_loop_store g now ready : forall excess m,
  m_store (prune_loop g now excess ready m) = run (g_store g) (map (EDisconnect now) (firstn excess ready)) (m_store m).
Proof.
  induction ready as [|p l IH]; intros [|e] m; cbn [prune_loop firstn map]; try reflexivity.
  rewrite IH, disconnect_store. reflexivity.
Qed.
Lemma on_disconnected_store g now p m :
  m_store (on_disconnected g now p m) = step (g_store g) (m_store m) (EClosed now p).
Proof.
  unfold on_disconnected. pose proof (reg_disc_a_eq (g_store g) now p (m_store m)) as H.
  destruct (register_disconnected_a (g_store g) now p (m_store m)) as [[s a] pr]. cbn [step]. rewrite <- H. cbn [fst with_events m_store].
  destruct a; rewrite ?apply_action_store; reflexivity.
Qed.
Lemma cache_known_store g now k i m :
  m_store (cache_known g now k i m) =
  run (g_store g) [EUpsert now k (i_key i) (i_addrs i); EMember now k] (m_store m).
Proof.
  unfold cache_known. assert (Ek : i_key (clean g i) = i_key i /\ i_addrs (clean g i) = i_addrs i).
  { unfold clean. destruct (i_rpc i); auto. destruct (g_rpc_ok g n); auto. }
  destruct Ek as [-> ->]. cbn [run fold_left step]. set (s1 := upsert _ _ _ _ _ _).
  cbn [m_store with_known with_store]. unfold membership. destruct (in_slots s1 k).
  - pose proof (forgive_a_fst (g_store g) now [k] s1) as H. destruct (forgive_a (g_store g) now [k] s1) as [s a].
    rewrite apply_actions_store. cbn in H. subst s. reflexivity.
  - rewrite apply_actions_store. reflexivity.
Qed.
Lemma prune_connected_store g now rt is m : exists l, m_store (prune_connected g now rt is m) = run (g_store g) (map (EDisconnect now) l) (m_store m).
Proof.
  unfold prune_connected. destruct (_ =? 0); [exists []; reflexivity|]. rewrite prune_loop_store. eexists. reflexivity.
Qed.
Lemma mstep_store g m e : reaches (g_store g) (m_store m) (m_store (mstep g m e)).
Proof.
  destruct e; cbn [mstep].
  - unfold add_trusted_and_dial. rewrite dial_store. cbn [m_store with_known with_pinned]. rewrite temp_unban_store.
    exists [ETrusted now k (i_key i)]. reflexivity.
  - rewrite dial_store. apply reaches_refl.
  - unfold penalize. destruct (is_local m p); [apply reaches_refl|].
    destruct (process_penalty (g_store g) now p pen (m_store m)) as [s a] eqn:E. rewrite apply_action_store. cbn [m_store with_store].
    exists [EPenalty now p pen]. cbn. rewrite E. reflexivity.
  - rewrite disconnect_store. apply reaches_step.
  - unfold pending_out. destruct op as [p|]; [|apply reaches_refl]. destruct (is_local m p); [apply reaches_refl|].
    destruct (dialing_now m p); [apply reaches_refl|]. destruct (mgr_can_dial g m p); [|apply reaches_refl].
    exists [EDial now p]. reflexivity.
  - destruct (established g m p a incoming); [|apply reaches_refl]. unfold on_established.
    assert (H : reaches (g_store g) (m_store m) (m_store (register_connection g now p a incoming m))).
    { unfold register_connection. destruct (peer_banned (g_store g) (m_store m) p) eqn:E; [apply reaches_refl|].
      exists [EConnect now p a incoming]. cbn. rewrite E. reflexivity. }
    destruct (_ && _); [|exact H]. eapply reaches_trans; [exact H|]. rewrite disconnect_store. apply reaches_step.
  - unfold on_closed. destruct (0 <? remaining); [apply reaches_refl|]. rewrite on_disconnected_store.
    destruct (conn_or_disconnecting m p); apply reaches_step.
  - unfold on_dial_failure. destruct op as [p|]; [|apply reaches_refl]. destruct (is_connected m p); [apply reaches_refl|].
    rewrite on_disconnected_store. apply reaches_step.
  - unfold on_exchange. destruct (_ <? _); apply reaches_refl.
  - apply reaches_refl.
  - unfold on_committees. set (m2 := forgive_temp d _).
    assert (E : m_store m2 = m_store m) by (unfold m2; rewrite !forgive_temp_store, !chase_store; reflexivity).
    pose proof (forgive_a_fst (g_store g) now (a ++ b ++ d)
      (mkStore (peers (m_store m2)) (idx (m_store m2)) a b d (b_total (m_store m2)) (b_ips (m_store m2)) (disc (m_store m2)))) as H.
    destruct (forgive_a _ _ _ _) as [s acts]. cbn [prune_known m_store with_known]. rewrite apply_actions_store. cbn in H. subst s.
    rewrite E. exists [ECommittees now a b d]. reflexivity.
  - unfold on_prepare. pose proof (forgive_a_fst (g_store g) now l (m_store (forgive_temp l m))) as H.
    destruct (forgive_a _ _ _ _) as [s acts]. rewrite apply_actions_store. cbn in H. subst s. rewrite forgive_temp_store. exists [EMark now l]. reflexivity.
  - unfold add_known. rewrite cache_known_store. eexists. reflexivity.
  - unfold add_restored. rewrite cache_known_store. eexists. reflexivity.
  - unfold add_bootstrap. destruct (get _ _ _); [apply reaches_refl|]. rewrite cache_known_store. eexists. reflexivity.
  - unfold add_discovered. destruct (negb _); [apply reaches_refl|]. destruct (stale _ _ _); [apply reaches_refl|].
    rewrite cache_known_store. eexists. reflexivity.
  - unfold add_self_advertised. destruct (in_slots _ _).
    + destruct (stale _ _ _); [apply reaches_refl|]. rewrite cache_known_store. eexists. reflexivity.
    + destruct (N.eqb _ _); [|apply reaches_refl]. exists [EUpsert now k (i_key i) (i_addrs i)]. reflexivity.
  - apply reaches_refl.
  - cbn [fst committee_rpcs]. rewrite chase_store. apply reaches_refl.
  - unfold mgr_heartbeat. pose proof (heartbeat_a_fst (g_store g) now (m_store m)) as H.
    destruct (heartbeat_a (g_store g) now (m_store m)) as [s acts]. cbn in H. subst s.
    rewrite discovery_beat_store, unban_expired_store.
    destruct (prune_connected_store g now rt is0 (apply_actions now acts (with_store (heartbeat (g_store g) now (m_store m)) m))) as [l ->].
    rewrite apply_actions_store. cbn [m_store with_store].
    eapply reaches_trans; [exists [EHeartbeat now]; reflexivity|]. eexists. reflexivity.
  - unfold poll. destruct (m_events m); [|apply reaches_refl]. destruct (m_dials m) as [|[p addrs] t]; [apply reaches_refl|].
    exists [EDial now p]. reflexivity.
  - exists [EMoveFront i]. reflexivity.
Qed.
Lemma mrun_store g l : forall m, reaches (g_store g) (m_store m) (m_store (mrun g l m)).
Proof.
  induction l as [|e l IH]; intros m; cbn; [apply reaches_refl|]. eapply reaches_trans; [apply mstep_store|apply IH].
Qed.
Lemma mgr_inv g l p dur n : Inv false false (m_store (mrun g l (mgr_new p dur n))).
Proof. destruct (mrun_store g l (mgr_new p dur n)) as [h ->]. apply run_inv. apply Inv_empty. Qed.
Lemma mstep_inv g m e : Inv false false (m_store m) -> Inv false false (m_store (mstep g m e)).
Proof. intros H. destruct (mstep_store g m e) as [h ->]. apply run_inv; auto. Qed.
