(* The directory of known peers: what each call does to it, and which calls move the committee slots. *)
From Verif Require Import Util AMap PeersModel PeersSpec PeersProofs PeersProofs2 PeersProofs3 PeersProofs4 PeersProofs6 CacheModel MgrModel MgrSpec MgrProofs.
Local Open Scope N_scope.

Definition slots (s : store) := (previous s, current s, next s).
Lemma in_slots_eq s s' k : slots s = slots s' -> in_slots s k = in_slots s' k.
Proof. unfold slots, in_slots. intros E. injection E as -> -> ->. reflexivity. Qed.
Lemma sl_evict id s : slots (fst (evict id s)) = slots s.
Proof. unfold evict. destruct (rec_of id s) as [r|]; auto. destruct id; [destruct (p_net r)|]; reflexivity. Qed.
Lemma sl_release r s : slots (release r s) = slots s.
Proof. unfold release. destruct (p_status r); reflexivity. Qed.
Lemma sl_opt_release o s : slots (opt_release o s) = slots s.
Proof. destruct o; [apply sl_release|reflexivity]. Qed.
Lemma sl_ensure c now p ns s : slots (fst (ensure_exists c now p ns s)) = slots s.
Proof.
  unfold ensure_exists. cbv zeta. cbn [fst].
  generalize (match identity_for s p with Confirmed k => match rec_of (Confirmed k) s with Some _ => false | None => true end | Unident _ => false end). intros b.
  assert (E1 : slots (if b then set_idx (del N.eqb p (idx s)) s else s) = slots s) by (destruct b; reflexivity).
  generalize dependent (if b then set_idx (del N.eqb p (idx s)) s else s). intros s1 E1.
  generalize (if b then Unident p else identity_for s p). intros id.
  assert (E2 : slots (match rec_of id s1 with Some _ => s1 | None => put_rec id (peer_default c now) s1 end) = slots s) by (destruct (rec_of id s1); exact E1).
  generalize dependent (match rec_of id s1 with Some _ => s1 | None => put_rec id (peer_default c now) s1 end). intros s2 E2.
  destruct ns; auto. destruct (rec_of id s2); auto.
Qed.
Lemma sl_set_status p st s : slots (set_status p st s) = slots s.
Proof. unfold set_status. destruct (rec_of _ s); reflexivity. Qed.
Lemma sl_update c now p ns s : slots (fst (update_status c now p ns s)) = slots s.
Proof.
  unfold update_status. pose proof (sl_ensure c now p ns s) as E. destruct (ensure_exists c now p ns s) as [s1 cs]. cbn [fst] in E.
  rewrite <- E. destruct ns as [a inc|b| | | |]; cbn [fst].
  - unfold to_connected. destruct (rec_of _ s1); auto. destruct cs; reflexivity.
  - unfold to_disconnecting. destruct cs; cbn [fst]; try apply sl_set_status. 
  - unfold to_dialing. destruct (rec_of _ s1); auto. destruct cs; reflexivity.
  - unfold to_disconnected, to_disconnected_banned. destruct cs as [| [|]| | | |]; cbn [fst]; auto; try (apply (sl_set_status p _ (set_disc (disc s1 + 1) s1))).
    destruct (rec_of _ s1); reflexivity.
  - unfold to_banned. destruct (rec_of _ s1); auto. destruct cs; try reflexivity. destruct (is_banned_st _); reflexivity.
  - unfold to_unbanned. destruct (rec_of _ s1); auto. destruct cs as [| [|]| | | |]; reflexivity.
Qed.
Lemma sl_status_all c now ns l : forall s, slots (status_all c now ns l s) = slots s.
Proof. unfold status_all. induction l as [|p l IH]; intros s; cbn [fold_left]; auto. rewrite IH. apply sl_update. Qed.
Lemma sl_forgive c now s k : slots (forgive c now s k) = slots s.
Proof.
  unfold forgive. destruct (rec_of (Confirmed k) s) as [r0|]; auto. destruct (p_net r0) as [p|]; auto.
  pose proof (sl_ensure c now p NUnbanned s) as E. destruct (ensure_exists c now p NUnbanned s) as [s1 st]. cbn [fst] in E.
  set (s2 := match st with Disconnecting true | Banned _ => _ | _ => s1 end).
  assert (E2 : slots s2 = slots s) by (unfold s2; destruct st as [| [|]| | | |]; auto; rewrite sl_update; auto).
  destruct (rec_of (Confirmed k) s2); [exact E2|exact E2].
Qed.
Lemma sl_forgives c now l : forall s, slots (fold_left (forgive c now) l s) = slots s.
Proof. induction l as [|k l IH]; intros s; cbn [fold_left]; auto. rewrite IH. apply sl_forgive. Qed.
Lemma sl_upsert c now k p addrs s : slots (upsert c now k p addrs s) = slots s.
Proof.
  unfold upsert. destruct (ident_eqb _ _).
  - destruct (rec_of _ s); [reflexivity|]. unfold normalize. destruct (p_status _) as [| [|]| | | |]; reflexivity.
  - pose proof (sl_evict (Confirmed k) s) as E. destruct (evict (Confirmed k) s) as [s1 o]. cbn [fst] in E. rewrite <- E.
    destruct (rec_of (identity_for s p) s1), o; try reflexivity.
    + change (slots (release p1 (del_rec (identity_for s p) s1)) = slots s1). rewrite sl_release. reflexivity.
    + unfold normalize. destruct (p_status _) as [| [|]| | | |]; reflexivity.
    + unfold normalize. destruct (p_status _) as [| [|]| | | |]; reflexivity.
Qed.
Lemma sl_trusted c now k p s : slots (add_trusted c now k p s) = slots s.
Proof.
  assert (F : forall id t, slots (let '(t', o) := evict id t in opt_release o t') = slots t).
  { intros id t. pose proof (sl_evict id t) as E. destruct (evict id t) as [t' o]. rewrite sl_opt_release. exact E. }
  unfold add_trusted. cbv zeta.
  match goal with |- slots (put_rec _ _ (set_idx _ ?t)) = _ => change (slots t = slots s) end.
  rewrite F. destruct (ident_eqb _ _); [reflexivity|]. apply F.
Qed.
Lemma sl_prune c s : slots (prune_banned c (prune_disconnected c s)) = slots s.
Proof.
  assert (A : forall t, slots (prune_disconnected c t) = slots t).
  { intros t. unfold prune_disconnected. generalize (collect c (disc t - c_max_disc c) disc_since t). intros l.
    assert (G : forall u, slots (fold_left (fun t e => let t1 := fst (evict (snd e) t) in set_disc (disc t1 - 1) t1) l u) = slots u).
    { induction l as [|e l IH]; intros u; cbn [fold_left]; auto. rewrite IH. apply (sl_evict (snd e) u). }
    apply G. }
  assert (B : forall t, slots (prune_banned c t) = slots t).
  { intros t. unfold prune_banned. generalize (collect c (b_total t - c_max_banned c) banned_since t). intros l.
    assert (G : forall u, slots (fold_left (fun u e => remove_banned (ips_of (snd e) t) (fst (evict (snd e) u))) l u) = slots u).
    { induction l as [|e l IH]; intros u; cbn [fold_left]; auto. rewrite IH. apply (sl_evict (snd e) u). }
    apply G. }
  rewrite B. apply A.
Qed.
Lemma sl_penalty c now p pen s : slots (fst (process_penalty c now p pen s)) = slots s.
Proof.
  unfold process_penalty. destruct (rec_of _ s) as [r|]; auto. destruct (rep_eqb _ _); auto.
  destruct (rep c _); auto; [destruct (is_conn_or_dial _)|]; rewrite sl_update; reflexivity.
Qed.
Definition quiet (e : ev) : Prop := match e with ECommittees _ _ _ _ => False | _ => True end.
Lemma sl_step c s e : quiet e -> slots (step c s e) = slots s.
Proof.
  intros Hq. destruct e; cbn [step quiet] in *; try tauto; try apply sl_update; try apply sl_forgives; try reflexivity.
  all: try apply sl_trusted; try apply sl_upsert; try apply sl_penalty.
  all: try (destruct (PeersModel.peer_banned _ _ _); [reflexivity|apply sl_update]).
  all: try (unfold heartbeat; rewrite sl_status_all; unfold beat; cbn; apply sl_status_all).
  all: try (unfold register_disconnected; pose proof (sl_update c now p NDisconnected s) as E; destruct (update_status _ _ _ _ _); cbn [fst] in *; rewrite sl_prune; exact E).
  all: try (unfold membership; destruct (in_slots s k); auto; apply sl_forgive).
Qed.
Lemma sl_run c l : forall s, Forall quiet l -> slots (run c l s) = slots s.
Proof. induction l as [|e l IH]; intros s H; inversion H; subst; cbn; auto. fold (run c l (step c s e)). rewrite IH by auto. apply sl_step; auto. Qed.

Definition reachq (c : cfg) (s s' : store) : Prop := exists h, Forall quiet h /\ s' = run c h s.
Lemma reachq_refl c s : reachq c s s.
Proof. exists []. split; [constructor|reflexivity]. Qed.
Lemma reachq_trans c a b d : reachq c a b -> reachq c b d -> reachq c a d.
Proof. intros (h1 & F1 & ->) (h2 & F2 & ->). exists (h1 ++ h2). split; [apply Forall_app; auto|]. unfold run. rewrite fold_left_app. reflexivity. Qed.
Lemma rq_run c h s s' : s' = run c h s -> Forall quiet h -> reachq c s s'.
Proof. intros E F. exists h. auto. Qed.
Lemma rq_step c s e : quiet e -> reachq c s (step c s e).
Proof. intros H. exists [e]. split; [repeat constructor; auto|reflexivity]. Qed.
Lemma mstep_quiet g m e : (forall now a b d, e <> MCommittees now a b d) -> reachq (g_store g) (m_store m) (m_store (mstep g m e)).
Proof.
  intros Hne. destruct e; cbn [mstep].
  - unfold add_trusted_and_dial. rewrite dial_store. cbn [m_store with_known with_pinned]. rewrite temp_unban_store.
    apply (rq_run _ [ETrusted now k (i_key i)]); [reflexivity|repeat constructor].
  - rewrite dial_store. apply reachq_refl.
  - unfold penalize. destruct (is_local m p); [apply reachq_refl|].
    destruct (process_penalty (g_store g) now p pen (m_store m)) as [s a] eqn:E. rewrite apply_action_store. cbn [m_store with_store].
    apply (rq_run _ [EPenalty now p pen]); [cbn; rewrite E; reflexivity|repeat constructor].
  - rewrite disconnect_store. apply rq_step; exact I.
  - unfold pending_out. destruct op as [p|]; [|apply reachq_refl]. destruct (is_local m p); [apply reachq_refl|].
    destruct (dialing_now m p); [apply reachq_refl|]. destruct (mgr_can_dial g m p); [|apply reachq_refl].
    apply (rq_run _ [EDial now p]); [reflexivity|repeat constructor].
  - destruct (established g m p a incoming); [|apply reachq_refl]. unfold on_established.
    assert (H : reachq (g_store g) (m_store m) (m_store (register_connection g now p a incoming m))).
    { unfold register_connection. destruct (peer_banned (g_store g) (m_store m) p) eqn:E; [apply reachq_refl|].
      apply (rq_run _ [EConnect now p a incoming]); [cbn; rewrite E; reflexivity|repeat constructor]. }
    destruct (_ && _); [|exact H]. eapply reachq_trans; [exact H|]. rewrite disconnect_store. apply rq_step; exact I.
  - unfold on_closed. destruct (0 <? remaining)%nat; [apply reachq_refl|]. rewrite on_disconnected_store.
    destruct (conn_or_disconnecting m p); apply rq_step; exact I.
  - unfold on_dial_failure. destruct op as [p|]; [|apply reachq_refl]. destruct (is_connected m p); [apply reachq_refl|].
    rewrite on_disconnected_store. apply rq_step; exact I.
  - unfold on_exchange. destruct (_ <? _)%nat; apply reachq_refl.
  - apply reachq_refl.
  - destruct (Hne now a b d eq_refl).
  - unfold on_prepare. pose proof (forgive_a_fst (g_store g) now l (m_store (forgive_temp l m))) as H.
    destruct (forgive_a _ _ _ _) as [s acts]. rewrite apply_actions_store. cbn in H. subst s. rewrite forgive_temp_store. apply (rq_run _ [EMark now l]); [reflexivity|repeat constructor].
  - unfold add_known. rewrite cache_known_store. eapply rq_run; [reflexivity|repeat constructor].
  - unfold add_restored. rewrite cache_known_store. eapply rq_run; [reflexivity|repeat constructor].
  - unfold add_bootstrap. destruct (get _ _ _); [apply reachq_refl|]. rewrite cache_known_store. eapply rq_run; [reflexivity|repeat constructor].
  - unfold add_discovered. destruct (negb _); [apply reachq_refl|]. destruct (stale _ _ _); [apply reachq_refl|].
    rewrite cache_known_store. eapply rq_run; [reflexivity|repeat constructor].
  - unfold add_self_advertised. destruct (in_slots _ _).
    + destruct (stale _ _ _); [apply reachq_refl|]. rewrite cache_known_store. eapply rq_run; [reflexivity|repeat constructor].
    + destruct (N.eqb _ _); [|apply reachq_refl]. apply (rq_run _ [EUpsert now k (i_key i) (i_addrs i)]); [reflexivity|repeat constructor].
  - apply reachq_refl.
  - cbn [fst committee_rpcs]. rewrite chase_store. apply reachq_refl.
  - unfold mgr_heartbeat. pose proof (heartbeat_a_fst (g_store g) now (m_store m)) as H.
    destruct (heartbeat_a (g_store g) now (m_store m)) as [s acts]. cbn in H. subst s.
    rewrite discovery_beat_store, unban_expired_store.
    destruct (prune_connected_store g now rt is0 (apply_actions now acts (with_store (heartbeat (g_store g) now (m_store m)) m))) as [l ->].
    rewrite apply_actions_store. cbn [m_store with_store].
    eapply reachq_trans; [apply (rq_run _ [EHeartbeat now]); [reflexivity|repeat constructor]|]. eapply rq_run; [reflexivity|]. apply Forall_forall. intros x Hx. apply in_map_iff in Hx. destruct Hx as (y & <- & _). exact I.
  - unfold poll. destruct (m_events m); [|apply reachq_refl]. destruct (m_dials m) as [|[p addrs] t]; [apply reachq_refl|].
    apply (rq_run _ [EDial now p]); [reflexivity|repeat constructor].
  - apply (rq_run _ [EMoveFront i]); [reflexivity|repeat constructor].
Qed.

Lemma mstep_slots g m e : slots (m_store (mstep g m e)) = match e with MCommittees _ a b d => (a, b, d) | _ => slots (m_store m) end.
Proof.
  assert (Q : (forall now a b d, e <> MCommittees now a b d) -> slots (m_store (mstep g m e)) = slots (m_store m)).
  { intros H. destruct (mstep_quiet g m e H) as (h & F & ->). apply sl_run. exact F. }
  destruct e; try (apply Q; discriminate). cbn [mstep]. unfold on_committees.
  match goal with |- context [forgive_a ?c ?n ?l ?s0] => pose proof (forgive_a_fst c n l s0) as H; set (s0' := s0) in * end.
  destruct (forgive_a _ _ _ _) as [s acts]. cbn [prune_known m_store with_known]. rewrite apply_actions_store. cbn [fst m_store with_store] in *.
  subst s. rewrite sl_forgives. reflexivity.
Qed.

(* ---------- known and pinned ---------- *)
Definition dirv (m : mgr) := (m_known m, m_pinned m).
Lemma dv_temp_ban now p m : dirv (temp_ban now p m) = dirv m.
Proof. unfold temp_ban. destruct (cache_insert _ _ _) as [[c [b [o|]]]|]; reflexivity. Qed.
Lemma dv_temp_unban p m : dirv (temp_unban p m) = dirv m.
Proof. unfold temp_unban. destruct (cache_remove _ _) as [[c b]|]; reflexivity. Qed.
Lemma dv_action now p a m : dirv (apply_action now p a m) = dirv m.
Proof. destruct a; cbn [apply_action]; try reflexivity; apply (dv_temp_ban now p m). Qed.
Lemma dv_actions now l : forall m, dirv (apply_actions now l m) = dirv m.
Proof. unfold apply_actions. induction l as [|[p a] l IH]; intros m; cbn [fold_left]; auto. rewrite IH. apply dv_action. Qed.
Lemma dv_dial p a m : dirv (dial_peer p a m) = dirv m.
Proof. unfold dial_peer. destruct (is_local m p); auto. destruct (get_peer _ _) as [r|]; auto. destruct (p_status r); auto. Qed.
Lemma dv_dials l : forall m, dirv (fold_left (fun m (e : pid * list maddr) => dial_peer (fst e) (snd e) m) l m) = dirv m.
Proof. induction l as [|e l IH]; intros m; cbn [fold_left]; auto. rewrite IH. apply dv_dial. Qed.
Lemma dv_forgive_temp l : forall m, dirv (forgive_temp l m) = dirv m.
Proof.
  induction l as [|k l IH]; intros m; auto.
  change (forgive_temp (k :: l) m) with (forgive_temp l (match auth_to_peer k m with Some (p, _) => temp_unban p m | None => m end)).
  rewrite IH. destruct (auth_to_peer k m) as [[p a]|]; auto. apply dv_temp_unban.
Qed.
Lemma dv_chase l m : dirv (chase l m) = dirv m.
Proof. unfold chase. match goal with |- context [match ?x with [] => _ | _ => _ end] => destruct x end; auto. Qed.
Lemma dv_disconnect g now p px m : dirv (disconnect g now p px m) = dirv m.
Proof. unfold disconnect. destruct (update_status _ _ _ _ _) as [s a]. rewrite dv_action. reflexivity. Qed.
Lemma dv_prune_loop g now l : forall n m, dirv (prune_loop g now n l m) = dirv m.
Proof. induction l as [|p l IH]; intros [|n] m; cbn [prune_loop]; auto. rewrite IH. apply dv_disconnect. Qed.
Lemma dv_disconnected g now p m : dirv (on_disconnected g now p m) = dirv m.
Proof.
  unfold on_disconnected. destruct (register_disconnected_a _ _ _ _) as [[s a] out].
  change (dirv (match a with ABan => apply_action now p a (with_store s m) | _ => with_store s m end) = dirv m).
  destruct a; auto. rewrite dv_action. reflexivity.
Qed.
Lemma dv_unban_expired now m : dirv (unban_expired now m) = dirv m.
Proof.
  unfold unban_expired. destruct (cache_beat _ _) as [t out].
  assert (G : forall m, dirv (fold_left (fun m p => push (PUnbanned p) m) out m) = dirv m) by (induction out as [|p l IH]; intros m0; cbn [fold_left]; auto; rewrite IH; reflexivity).
  rewrite G. reflexivity.
Qed.
Lemma dv_discovery g is1 is2 m : dirv (discovery_beat g is1 is2 m) = dirv m.
Proof.
  unfold discovery_beat. set (mm := fold_left _ (to_dial g is1 m) _).
  assert (V : dirv mm = dirv m) by (unfold mm; rewrite dv_dials; reflexivity).
  destruct (_ <? _)%nat; [exact V|]. destruct (_ <? _)%nat; exact V.
Qed.
Lemma dv_cache_known g now k i m : dirv (cache_known g now k i m) = (put N.eqb k (clean g i) (m_known m), m_pinned m).
Proof.
  unfold cache_known. match goal with |- context [let '(s, acts) := ?x in _] => destruct x as [s a] end.
  rewrite dv_actions. reflexivity.
Qed.
(* which record a kad-sourced call writes *)
Definition kad_writes (m : mgr) (k : bls) (i : info) : bool := in_slots (m_store m) k && negb (stale m k i).
Lemma mstep_dir g m e : dirv (mstep g m e) =
  match e with
  | MTrusted _ k i => (put N.eqb k i (m_known m), set_add k (m_pinned m))
  | MKnown _ k i => (put N.eqb k (clean g i) (m_known m), set_add k (m_pinned m))
  | MRestored _ k i => (put N.eqb k (clean g i) (m_known m), m_pinned m)
  | MBootstrap _ k i => (match get N.eqb k (m_known m) with Some _ => m_known m | None => put N.eqb k (clean g i) (m_known m) end, set_add k (m_pinned m))
  | MKad _ k i | MSelfAdv _ _ k i => (if kad_writes m k i then put N.eqb k (clean g i) (m_known m) else m_known m, m_pinned m)
  | MCommittees _ a b d => (filter (fun e => memN (fst e) (m_pinned m) || (memN (fst e) a || memN (fst e) b || memN (fst e) d)) (m_known m), m_pinned m)
  | _ => (m_known m, m_pinned m)
  end.
Proof.
  pose proof (mstep_slots g m e) as SL. change (m_known m, m_pinned m) with (dirv m). destruct e; cbn [mstep] in *.
  - unfold add_trusted_and_dial. rewrite dv_dial. 
    set (m1 := temp_unban _ _). assert (V : dirv m1 = dirv m) by (unfold m1; rewrite dv_temp_unban; reflexivity).
    unfold dirv in *. injection V as V1 V2. cbn [m_known m_pinned with_known with_pinned]. rewrite V1, V2. reflexivity.
  - apply dv_dial.
  - unfold penalize. destruct (is_local m p); auto. destruct (process_penalty _ _ _ _ _) as [s a]. rewrite dv_action. reflexivity.
  - apply dv_disconnect.
  - unfold pending_out. destruct op as [p|]; auto. destruct (is_local m p); auto. destruct (dialing_now m p); auto. destruct (mgr_can_dial g m p); auto.
  - destruct (established g m p a incoming); auto. unfold on_established.
    assert (G : dirv (register_connection g now p a incoming m) = dirv m) by (unfold register_connection; destruct (peer_banned _ _ _); reflexivity).
    destruct (_ && _); [rewrite dv_disconnect|]; exact G.
  - unfold on_closed. destruct (0 <? remaining)%nat; auto. rewrite dv_disconnected. destruct (conn_or_disconnecting m p); reflexivity.
  - unfold on_dial_failure. destruct op as [p|]; auto. destruct (is_connected m p); auto. apply dv_disconnected.
  - unfold on_exchange. destruct (_ <? _)%nat; reflexivity.
  - reflexivity.
  - unfold on_committees in *. set (m2 := forgive_temp d _) in *.
    assert (V : dirv m2 = dirv m) by (unfold m2; rewrite !dv_forgive_temp, !dv_chase; reflexivity).
    destruct (forgive_a _ _ _ _) as [s acts]. unfold prune_known in *. cbn [m_store with_known] in SL. rewrite apply_actions_store in SL. cbn [m_store with_store] in SL.
    pose proof (dv_actions now acts (with_store s m2)) as V2. change (dirv (with_store s m2)) with (dirv m2) in V2. rewrite V in V2.
    unfold dirv in V2 at 1. injection V2 as V3 V4. unfold dirv at 1. cbn [m_known m_pinned with_known]. rewrite V3, V4, apply_actions_store. cbn [m_store with_store].
    unfold in_slots. unfold slots in SL. injection SL as -> -> ->. reflexivity.
  - unfold on_prepare. destruct (forgive_a _ _ _ _) as [s acts]. rewrite dv_actions. change (dirv (forgive_temp l m) = dirv m). apply dv_forgive_temp.
  - unfold add_known. rewrite dv_cache_known. reflexivity.
  - unfold add_restored. rewrite dv_cache_known. reflexivity.
  - unfold add_bootstrap. cbn [m_known with_pinned]. destruct (get _ _ _) eqn:E; [reflexivity|]. rewrite dv_cache_known. reflexivity.
  - unfold add_discovered, kad_writes. destruct (in_slots _ _); cbn [negb andb]; [|reflexivity]. destruct (stale _ _ _); cbn [negb]; [reflexivity|]. apply dv_cache_known.
  - unfold add_self_advertised, kad_writes. destruct (in_slots _ _); cbn [negb andb].
    + destruct (stale _ _ _); cbn [negb]; [reflexivity|]. apply dv_cache_known.
    + destruct (N.eqb _ _); reflexivity.
  - reflexivity.
  - cbn [fst committee_rpcs]. apply dv_chase.
  - unfold mgr_heartbeat. destruct (heartbeat_a _ _ _) as [s acts]. rewrite dv_discovery, dv_unban_expired.
    assert (G : dirv (apply_actions now acts (with_store s m)) = dirv m) by (rewrite dv_actions; reflexivity).
    unfold prune_connected. destruct (_ =? 0)%nat; [exact G|]. rewrite dv_prune_loop. exact G.
  - unfold poll. destruct (m_events m); [destruct (m_dials m) as [|[p a] t]|]; reflexivity.
  - reflexivity.
Qed.
