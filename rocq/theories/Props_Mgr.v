(* C53: the peer manager refuses whom it has banned, tells the swarm about every ban and every end of a
   ban, and its ban bookkeeping is bounded. *)
From Verif Require Import Util AMap PeersModel PeersSpec PeersProofs PeersProofs2 PeersProofs3 PeersProofs4 PeersProofs5 PeersProofs6 CacheModel CacheSpec CacheProofs MgrModel MgrSpec MgrProofs MgrProofs2 MgrProofs3 MgrProofs4 MgrProofs5.
Local Open Scope N_scope.

Definition start (local : pid) (dur : N) (max_temp : nat) (g : mcfg) (l : list mev) : mgr := mrun g l (mgr_new local dur max_temp).
Lemma start_any local dur n g l : forward l ->
  exists t, JX dur (Nat.max n 1) anyone t (start local dur n g l) /\ forall l2, forward (l ++ l2) -> forward_from t l2.
Proof.
  intros Hf. apply (mrun_any g dur (Nat.max n 1) l (mgr_new local dur n) 0); [|exact Hf].
  eapply JX_any, JX_new.
Qed.
Lemma start_clean local dur n g l : forward l -> clean_run g (mgr_new local dur n) l ->
  exists t, JX dur (Nat.max n 1) none t (start local dur n g l) /\ forall l2, forward (l ++ l2) -> forward_from t l2.
Proof.
  intros Hf Hc. destruct (mrun_clean g dur (Nat.max n 1) l (mgr_new local dur n) 0 (JX_new dur n local) (Inv_empty _ _) Hf Hc) as (t & A & B & C).
  exists t. split; [exact A|exact C].
Qed.
Lemma step_time t e : forward_from t [e] -> on_time t e.
Proof. unfold on_time. cbn. destruct (at_time e); tauto. Qed.

(* ---- the gates ---- *)
(* Who is shut out: the node itself, a temporarily banned peer, a peer whose score is at or below the
   ban threshold, and a peer seen on a banned address. *)
Definition shut_out (g : mcfg) (m : mgr) (p : pid) : Prop :=
  p = m_local m \/ cache_contains p (m_temp m) = true \/
  exists r, get_peer (m_store m) p = Some r /\
    ((s_agg (p_score r) <= c_ban (g_store g))%Z \/ exists x, In x (p_ips r) /\ ip_banned (m_store m) x = true).
Lemma shut_out_iff g m p : shut_out g m p <-> is_local m p || banned g m p = true.
Proof.
  unfold shut_out, is_local, banned, PeersModel.peer_banned. rewrite !orb_true_iff, N.eqb_eq.
  assert (H : (exists r, get_peer (m_store m) p = Some r /\
     ((s_agg (p_score r) <= c_ban (g_store g))%Z \/ exists x, In x (p_ips r) /\ ip_banned (m_store m) x = true)) <->
     match get_peer (m_store m) p with
     | Some r => rep_eqb (rep (g_store g) r) RBanned || existsb (ip_banned (m_store m)) (p_ips r)
     | None => false end = true).
  { destruct (get_peer (m_store m) p) as [r|]; [|split; [intros (r & E & _); discriminate E|discriminate]].
    rewrite orb_true_iff, existsb_exists. assert (Hr : rep_eqb (rep (g_store g) r) RBanned = true <-> (s_agg (p_score r) <= c_ban (g_store g))%Z).
    { rewrite <- rep_banned. destruct (rep (g_store g) r); cbn; split; congruence. }
    rewrite Hr. split; [intros (x & E & Hx); injection E as <-; auto|intros Hx; exists r; auto]. }
  rewrite H. intuition auto.
Qed.
(* In any state: no connection with a peer that is shut out is accepted, in either direction, no dial to
   it goes out, and the attempts change nothing. *)
Theorem C53_shut_out : forall g m p, shut_out g m p -> forall now a incoming,
  established g m p a incoming = false /\
  mstep g m (MEstablished now p a incoming) = m /\
  pending_out g now (Some p) m = (m, false).
Proof.
  intros g m p Hs now a incoming. apply shut_out_iff, orb_true_iff in Hs.
  assert (E : established g m p a incoming = false).
  { unfold established. destruct Hs as [->| ->]; [reflexivity|]. rewrite andb_false_r. reflexivity. }
  split; [exact E|]. split; [cbn [mstep]; rewrite E; reflexivity|]. unfold pending_out, mgr_can_dial.
  destruct Hs as [Hs|Hs]; rewrite Hs; [reflexivity|]. destruct (is_local m p); [reflexivity|].
  destruct (dialing_now m p); reflexivity.
Qed.
(* Anyone else gets in: an incoming connection is accepted, and a dial goes out to a peer that is not
   connected, on its way out or already being dialed. *)
Theorem C53_open_to_others : forall g m p now a, ~ shut_out g m p ->
  established g m p a true = true /\
  (snd (pending_out g now (Some p) m) = true <->
     dialing_now m p = true \/ PeersModel.can_dial (m_store m) p = true).
Proof.
  intros g m p now a Hs. rewrite shut_out_iff in Hs. apply not_true_iff_false, orb_false_iff in Hs. destruct Hs as [H1 H2].
  unfold established, pending_out, mgr_can_dial. rewrite H1, H2. cbn [negb andb]. split; [reflexivity|].
  destruct (dialing_now m p); cbn [snd]; [tauto|]. destruct (PeersModel.can_dial (m_store m) p); cbn [snd]; intuition congruence.
Qed.
(* The node never penalises itself. *)
Theorem C53_self_spared : forall g m now pen, mstep g m (MPenalty now (m_local m) pen) = m.
Proof. intros. cbn [mstep]. unfold penalize, is_local. rewrite N.eqb_refl. reflexivity. Qed.

(* ---- over every history ---- *)
(* No expect of the ban cache ever fails. *)
Theorem C53_never_panics : forall local dur n g l, forward l -> m_dead (start local dur n g l) = false.
Proof. intros local dur n g l Hf. destruct (start_any local dur n g l Hf) as (t & J & _). apply J. Qed.

(* A peer that becomes recorded as banned, by a penalty, a closed connection or a failed dial, is shut
   out and on the gossip blacklist once the queued events are delivered. *)
Definition recorded_banned (m : mgr) (p : pid) : Prop := exists r t, get_peer (m_store m) p = Some r /\ p_status r = Banned t.
Lemma barred_iff m p : recorded_banned m p <-> barred (m_store m) p = true.
Proof.
  unfold recorded_banned, barred. destruct (get_peer (m_store m) p) as [r|].
  - split; [intros (x & t & E & Hx); injection E as <-; rewrite Hx; reflexivity|]. destruct (p_status r) eqn:E; try discriminate. intros _. eauto.
  - split; [intros (x & t & E & _); discriminate E|discriminate].
Qed.
Theorem C53_ban_announced : forall local dur n g l now p e,
  forward (l ++ [e]) ->
  (exists pen, e = MPenalty now p pen) \/ (exists rem, e = MClosed now p rem) \/ e = MDialFailure now (Some p) ->
  let m := start local dur n g l in let m' := mstep g m e in
  ~ recorded_banned m p -> recorded_banned m' p ->
  blacklisted m' p = true /\ cache_contains p (m_temp m') = true.
Proof.
  intros local dur n g l now p e Hf He m m' Hno Hyes.
  assert (Hf1 : forward l). { revert Hf. unfold forward. clear. generalize 0. induction l as [|x l IH]; intros t; cbn; auto. destruct (at_time x); [intros [A B]; split; eauto|eauto]. }
  destruct (start_any local dur n g l Hf1) as (t & J & Hg). specialize (Hg [e] Hf). fold m in J.
  assert (HI : Inv false false (m_store m)) by apply mgr_inv.
  rewrite barred_iff in Hno, Hyes. apply not_true_iff_false in Hno.
  assert (Hcl : forall m0, vis m0 = vis (with_events (m_events m0) m) -> m_store m0 = m_store m -> JX dur (Nat.max n 1) anyone t m0 -> t <= now ->
    barred (m_store (on_disconnected g now p m0)) p = true ->
    blacklisted (on_disconnected g now p m0) p = true /\ cache_contains p (m_temp (on_disconnected g now p m0)) = true).
  { intros m0 _ Es J0 Hn Hb. unfold on_disconnected in *. rewrite Es in *. pose proof (close_ban (g_store g) now p (m_store m) HI) as CB.
    destruct (register_disconnected_a (g_store g) now p (m_store m)) as [[s a] out]. cbn [m_store with_events] in Hb.
    assert (Hb' : barred s p = true).
    { destruct a; cbn [m_store with_store] in Hb; try exact Hb. rewrite apply_action_store in Hb. exact Hb. }
    destruct (CB Hb') as [Ho Ha]. rewrite (Ha Hno). rewrite bl_unbans. cbn [m_temp with_events apply_action]. split.
    - rewrite ban_announced. cbn [andb]. apply negb_true_iff, memN_nIn. exact Ho.
    - unfold process_ban. cbn [m_temp push with_events]. apply (temp_ban_ok dur (Nat.max n 1) anyone t now p); [|exact Hn].
      apply (JX_vis _ _ _ t m0); [reflexivity|exact J0]. }
  destruct He as [[pen ->]|[[rem ->]| ->]]; unfold m' in *; cbn [mstep] in *.
  - unfold penalize in *. destruct (is_local m p); [congruence|]. pose proof (penalty_ban_act (g_store g) now p pen (m_store m) HI) as PA.
    destruct (process_penalty (g_store g) now p pen (m_store m)) as [s a]. cbn [fst snd] in PA.
    rewrite apply_action_store in Hyes. rewrite (PA Hyes Hno). cbn [apply_action]. split; [apply ban_announced|].
    unfold process_ban. cbn [m_temp push with_events]. apply (temp_ban_ok dur (Nat.max n 1) anyone t now p); [|apply Hg].
    apply (JX_vis _ _ _ t m); [reflexivity|exact J].
  - unfold on_closed in *. destruct (0 <? rem)%nat; [congruence|]. destruct Hg as [Hg _]. destruct (conn_or_disconnecting m p).
    + apply Hcl; auto. apply JX_push; auto.
    + apply Hcl; auto.
  - unfold on_dial_failure in *. destruct (is_connected m p); [congruence|]. destruct Hg as [Hg _]. apply Hcl; auto.
Qed.
(* A temporary ban ends in one of two ways: the call at hand lifts it (the operator adds the peer as
   trusted, or a committee the peer belongs to is announced), or an Unbanned event for it is queued. *)
Definition names_peer (m : mgr) (e : mev) (p : pid) : Prop :=
  match e with
  | MTrusted _ _ i => i_key i = p
  | MCommittees _ a b d => exists k i, In k (a ++ b ++ d) /\ get N.eqb k (m_known m) = Some i /\ i_key i = p
  | MPrepare _ l => exists k i, In k l /\ get N.eqb k (m_known m) = Some i /\ i_key i = p
  | _ => False
  end.
Lemma names_dec m e p : names_peer m e p \/ ~ names_peer m e p.
Proof.
  assert (L : forall l, (exists k i, In k l /\ get N.eqb k (m_known m) = Some i /\ i_key i = p) \/ ~ (exists k i, In k l /\ get N.eqb k (m_known m) = Some i /\ i_key i = p)).
  { induction l as [|k l IH]; [right; intros (k & i & [] & _)|]. destruct IH as [(k0 & i & A & B)|IH]; [left; exists k0, i; split; [right; auto|auto]|].
    destruct (get N.eqb k (m_known m)) as [i|] eqn:E; [destruct (N.eq_dec (i_key i) p) as [Ek|Ek]|].
    - left. exists k, i. split; [left; auto|auto].
    - right. intros (k0 & i0 & [<-|A] & B & C); [assert (i0 = i) by congruence; subst; auto|apply IH; eauto].
    - right. intros (k0 & i0 & [<-|A] & B & C); [congruence|apply IH; eauto]. }
  destruct e; cbn; auto. destruct (N.eq_dec (i_key i) p); auto.
Qed.
Theorem C53_temp_ban_ends : forall local dur n g l e p,
  forward (l ++ [e]) ->
  let m := start local dur n g l in let m' := mstep g m e in
  cache_contains p (m_temp m) = true -> cache_contains p (m_temp m') = false ->
  names_peer m e p \/ In (PUnbanned p) (m_events m').
Proof.
  intros local dur n g l e p Hf m m' Hy Hn.
  assert (Hf1 : forward l). { revert Hf. unfold forward. clear. generalize 0. induction l as [|x l IH]; intros t; cbn; auto. destruct (at_time x); [intros [A B]; split; eauto|eauto]. }
  destruct (start_any local dur n g l Hf1) as (t & J & Hg). specialize (Hg [e] Hf). fold m in J.
  assert (U : UX dur (Nat.max n 1) p t m) by (constructor; auto).
  destruct (names_dec m e p) as [D|D]; [auto|]. right.
  assert (P : forall now0, e <> MPoll now0).
  { intros now0 ->. unfold m' in Hn. cbn [mstep] in Hn. unfold poll in Hn. destruct (m_events m); [destruct (m_dials m) as [|[q a] r]|]; cbn in Hn; congruence. }
  pose proof (mstep_UX g dur (Nat.max n 1) p t m e U (step_time t e Hg)) as [_ [G|G]]; auto.
  - intros L. apply D. destruct e; cbn in *; auto.
  - fold m' in G. congruence.
Qed.

(* ---- the blacklist ---- *)
(* As long as bans are lifted cleanly (clean_run, MgrSpec), every peer on the gossip blacklist is
   temporarily banned; so the blacklist is bounded, and a heartbeat clears everyone whose ban is older
   than the configured duration. *)
Theorem C53_blacklisted_are_shut_out : forall local dur n g l p,
  forward l -> clean_run g (mgr_new local dur n) l ->
  blacklisted (start local dur n g l) p = true -> shut_out g (start local dur n g l) p.
Proof.
  intros local dur n g l p Hf Hc Hb. destruct (start_clean local dur n g l Hf Hc) as (t & J & _).
  destruct (j_list _ _ _ _ _ J p Hb) as [H|[]]. right. left. exact H.
Qed.
Theorem C53_blacklist_bounded : forall local dur n g l ps,
  forward l -> clean_run g (mgr_new local dur n) l -> NoDup ps ->
  (forall p, In p ps -> blacklisted (start local dur n g l) p = true) ->
  (length ps <= Nat.max n 1)%nat.
Proof.
  intros local dur n g l ps Hf Hc Hn Hp. destruct (start_clean local dur n g l Hf Hc) as (t & J & _).
  pose proof (j_ci _ _ _ _ _ J) as C. rewrite <- (j_max _ _ _ _ _ J). pose proof (ci_le _ _ C) as HL.
  assert (HI : incl ps (map fst (c_list (m_temp (start local dur n g l))))).
  { intros p Hin. destruct (j_list _ _ _ _ _ J p (Hp p Hin)) as [H|[]]. apply (ci_contains _ _ _ C). exact H. }
  pose proof (NoDup_incl_length Hn HI) as HN. rewrite map_length in HN. lia.
Qed.
Theorem C53_blacklist_expires : forall local dur n g l now rt is0 is1 is2 p,
  let e := MHeartbeat now rt is0 is1 is2 in
  forward (l ++ [e]) -> clean_run g (mgr_new local dur n) (l ++ [e]) ->
  let m' := start local dur n g (l ++ [e]) in
  blacklisted m' p = true ->
  exists since, In (p, since) (c_list (m_temp m')) /\ since <= now /\ now < since + dur.
Proof.
  intros local dur n g l now rt is0 is1 is2 p e Hf Hc m' Hb.
  destruct (start_clean local dur n g (l ++ [e]) Hf Hc) as (t & J & _). fold m' in J.
  destruct (j_list _ _ _ _ _ J p Hb) as [H|[]].
  assert (Hf1 : forward l). { revert Hf. unfold forward. clear. generalize 0. induction l as [|x l IH]; intros t; cbn; auto. destruct (at_time x); [intros [A B]; split; eauto|eauto]. }
  destruct (start_any local dur n g l Hf1) as (t0 & J0 & Hg). specialize (Hg [e] Hf). cbn in Hg. destruct Hg as [Hg _].
  assert (Em : m' = mstep g (start local dur n g l) e) by (unfold m', start, mrun; rewrite fold_left_app; reflexivity).
  set (m := start local dur n g l) in *.
  unfold e in Em. cbn [mstep] in Em. unfold mgr_heartbeat in Em. destruct (heartbeat_a _ _ _) as [s acts].
  assert (G : JX dur (Nat.max n 1) anyone now (apply_actions now acts (with_store s m))).
  { eapply JX_actions'; [|exact Hg]. apply (JX_vis _ _ _ t0 m); [reflexivity|exact J0]. }
  assert (G2 : JX dur (Nat.max n 1) anyone now (prune_connected g now rt is0 (apply_actions now acts (with_store s m)))).
  { unfold prune_connected. destruct (_ =? 0)%nat; auto. apply JX_prune_loop; auto. }
  set (m2 := prune_connected _ _ _ _ _) in *.
  destruct (JX_expire dur (Nat.max n 1) anyone now now m2 G2 (N.le_refl _)) as [G3 L3].
  set (m3 := unban_expired now m2) in *.
  assert (Et : m_temp m' = m_temp m3).
  { rewrite Em. unfold discovery_beat. set (mm := fold_left _ (to_dial g is1 m3) _).
    assert (V : vis mm = vis m3) by (unfold mm; rewrite dials_vis; reflexivity). unfold vis in V. injection V as V1 V2 V3 V4.
    destruct (_ <? _)%nat; [exact V1|]. destruct (_ <? _)%nat; exact V1. }
  rewrite Et in *. apply (ci_contains _ _ _ (j_ci _ _ _ _ _ G3)) in H. apply in_map_iff in H. destruct H as ([q since] & E & Hin). cbn in E. subst q.
  exists since. split; [exact Hin|]. pose proof (ci_t _ _ (j_ci _ _ _ _ _ G3)) as Ho. rewrite Forall_forall in Ho. specialize (Ho _ Hin). cbn in Ho.
  split; [exact Ho|]. rewrite L3 in Hin. unfold unexpired in Hin. apply filter_In in Hin. destruct Hin as [_ Hin]. cbn in Hin. apply N.ltb_lt. exact Hin.
Qed.

(* ---- examples and what does not hold ---- *)
(* The defaults of config/network.rs 386-447 and 453-498: scores as in Props_Peers, temporary bans of
   600 s, reputation bans locked for 1800 s. *)
Definition dstore : cfg :=
  mkCfg 1000 0 100000 (-100000) (-20000) (-50000) 1800
    (fun d v => Z.quot v (2 ^ (Z.of_N d / 300)))%Z 15 500 500
    (fun id => match id with Confirmed k => 2 * k | Unident p => 2 * p + 1 end).
Definition dg : mcfg := mkMCfg dstore 30 39 45 (fun _ => true).
Definition from_ip (x : N) : maddr := mkAddr (Some x) 0.
Definition beat_at (now : N) : mev := MHeartbeat now (fun _ => true) [] [] [].
Definition ban_10 : list mev := [MEstablished 1 10 (from_ip 7) true; MPenalty 2 10 Fatal; MClosed 3 10 0].
(* a banned peer: shut out, blacklisted, and the history is clean *)
Theorem C53_example : let m := start 1 600 100 dg ban_10 in
  forward ban_10 /\ clean_run dg (mgr_new 1 600 100) ban_10 /\ recorded_banned m 10 /\
  blacklisted m 10 = true /\ cache_contains 10 (m_temp m) = true /\ established dg m 10 (from_ip 9) true = false /\
  blacklisted m 11 = false /\ established dg m 11 (from_ip 9) true = true /\ ~ shut_out dg m 11 /\ shut_out dg m 1.
Proof.
  split; [cbn; lia|]. split; [repeat split|]. split; [eexists; eexists; split; vm_compute; reflexivity|].
  do 5 (split; [vm_compute; reflexivity|]). split; [|left; reflexivity]. rewrite shut_out_iff. vm_compute. discriminate.
Qed.
(* before the close the peer was not yet recorded as banned, so C53_ban_announced applies to the close *)
Theorem C53_example_announced :
  ~ recorded_banned (start 1 600 100 dg [MEstablished 1 10 (from_ip 7) true; MPenalty 2 10 Fatal]) 10.
Proof. intros (r & t & A & B). vm_compute in A. injection A as <-. discriminate B. Qed.
(* the ban expires at the heartbeat: the Unbanned event is there *)
Theorem C53_example_ends : let m := start 1 600 100 dg (ban_10 ++ [beat_at 603]) in
  cache_contains 10 (m_temp m) = false /\ In (PUnbanned 10) (m_events m) /\ blacklisted m 10 = false /\
  cache_contains 10 (m_temp (start 1 600 100 dg (ban_10 ++ [beat_at 602]))) = true.
Proof. vm_compute. repeat split; auto 10. Qed.
(* Refuted: "a banned peer stays off the gossip network for the length of its ban".  The temporary ban
   lasts 600 s, the reputation ban at least 1800 s; when the temporary ban expires the peer is announced
   as unbanned and leaves the gossip blacklist, although it is still recorded as banned and shut out. *)
Theorem C53_refuted_blacklist_lasts :
  let l := ban_10 ++ [beat_at 603] in let m := start 1 600 100 dg l in
  forward l /\ clean_run dg (mgr_new 1 600 100) l /\
  recorded_banned m 10 /\ shut_out dg m 10 /\ blacklisted m 10 = false.
Proof.
  split; [cbn; lia|]. split; [repeat split|]. split; [eexists; eexists; split; vm_compute; reflexivity|].
  split; [rewrite shut_out_iff; vm_compute; reflexivity|vm_compute; reflexivity].
Qed.
(* Refuted: "a peer leaves the blacklist once its ban is over".  When the operator adds a banned peer as
   trusted, its bans are lifted without an Unbanned event: the peer is connected, in good standing, and
   stays on the gossip blacklist through every later heartbeat. *)
Theorem C53_refuted_trusted_leaves_blacklist :
  let l := ban_10 ++ [MTrusted 4 50 (mkInfo 10 [from_ip 7] 0 None); MPoll 5; MPoll 5; MPoll 5; MPoll 5; MPoll 5; MPoll 5;
                      MEstablished 6 10 (from_ip 7) false; beat_at 700; beat_at 4000; beat_at 100000] in
  let m := start 1 600 100 dg l in
  forward l /\ (exists r, get_peer (m_store m) 10 = Some r /\ p_oper r = true /\ is_conn (p_status r) = true) /\
  ~ shut_out dg m 10 /\ blacklisted m 10 = true.
Proof.
  split; [cbn; lia|]. split; [eexists; split; [vm_compute; reflexivity|split; reflexivity]|].
  split; [rewrite shut_out_iff; vm_compute; discriminate|vm_compute; reflexivity].
Qed.
(* Refuted: "members with no known network info yet are forgiven once discovered" (manager.rs 773-775).
   A temporarily banned peer that is discovered to be a committee member is forgiven in the peer store
   but stays in the temporary-ban cache: it can be neither dialed nor accepted. *)
Theorem C53_refuted_late_member_forgiven :
  let l := [MEstablished 1 10 (from_ip 7) true; MPenalty 2 10 Fatal; MClosed 3 10 0; MCommittees 4 [] [50] [];
            MKad 5 50 (mkInfo 10 [from_ip 7] 1 None)] in
  let m := start 1 600 100 dg l in
  forward l /\ in_slots (m_store m) 50 = true /\ idx_of 10 (m_store m) = Some 50 /\
  PeersModel.peer_banned dstore (m_store m) 10 = false /\ blacklisted m 10 = false /\
  established dg m 10 (from_ip 7) true = false /\ snd (pending_out dg 6 (Some 10) m) = false.
Proof. split; [cbn; lia|]. vm_compute. repeat split. Qed.
(* Refuted: "a peer recorded as banned is on the blacklist while its temporary ban lasts".  A banned peer
   that turns up under a new network key is recorded as banned under that key too, but the new key is
   neither announced nor temporarily banned. *)
Theorem C53_refuted_new_key_announced :
  let l := [MCommittees 1 [] [50] []; MKad 2 50 (mkInfo 10 [] 1 None); MEstablished 3 10 (from_ip 7) true; MCommittees 4 [] [] [];
            MPenalty 5 10 Fatal; MClosed 6 10 0; MSelfAdv 7 11 50 (mkInfo 11 [] 2 None)] in
  let m := start 1 600 100 dg l in
  forward l /\ recorded_banned m 11 /\ shut_out dg m 11 /\ blacklisted m 11 = false /\ blacklisted m 10 = true /\
  cache_contains 11 (m_temp m) = false.
Proof.
  split; [cbn; lia|]. split; [eexists; eexists; split; vm_compute; reflexivity|].
  split; [rewrite shut_out_iff; vm_compute; reflexivity|]. vm_compute. repeat split.
Qed.
(* A committee announcement that forgives a banned member takes it off the blacklist: this lift is clean. *)
Theorem C53_example_clean_lift :
  let l1 := [MCommittees 1 [] [50] []; MKad 2 50 (mkInfo 10 [] 1 None); MEstablished 3 10 (from_ip 7) true; MKnown 4 51 (mkInfo 11 [] 1 None);
            MEstablished 5 11 (from_ip 8) true; MPenalty 6 11 Fatal; MClosed 7 11 0] in
  let l := l1 ++ [MCommittees 8 [50] [51] []] in
  let m := start 1 600 100 dg l in
  blacklisted (start 1 600 100 dg l1) 11 = true /\ forward l /\ clean_run dg (mgr_new 1 600 100) l /\ blacklisted m 11 = false /\ ~ shut_out dg m 11.
Proof.
  split; [vm_compute; reflexivity|]. split; [cbn; lia|]. split.
  - cbn [app clean_run clean_call]. repeat split.
    + intros k [<-|[]] i Hi. vm_compute in Hi. discriminate Hi.
    + intros k Hk i Hi Hb. cbn in Hk. destruct Hk as [<-|[<-|[]]]; vm_compute in Hi; injection Hi as <-.
      * vm_compute in Hb. discriminate Hb.
      * eexists. eexists. split; [vm_compute; reflexivity|]. split; reflexivity.
  - split; [vm_compute; reflexivity|]. rewrite shut_out_iff. vm_compute. discriminate.
Qed.
