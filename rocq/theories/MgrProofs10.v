(* Connection limits; the invariants of discovery table and dial queue over histories. *)
From Coq Require Import Permutation Sorting.Sorted.
From Verif Require Import Util AMap PeersModel PeersSpec PeersProofs PeersProofs2 PeersProofs3 PeersProofs4 PeersProofs6 CacheModel CacheSpec CacheProofs MgrModel MgrSpec MgrProofs MgrProofs2 MgrProofs3 MgrProofs4 MgrProofs6 MgrProofs7 MgrProofs8 MgrProofs9.
Local Open Scope nat_scope.
Local Notation ieq := ident_eqb_eq.
Local Notation neq := N.eqb_eq.

Lemma DQ_step g m e : DQ (m_local m) m -> DQ (m_local m) (mstep g m e).
Proof.
  intros H. destruct e; cbn [mstep].
  - unfold add_trusted_and_dial. set (x := with_known _ _). assert (E : disq x = disq m) by (unfold x; exact (dq_temp_unban (i_key i) (with_store _ m))).
    assert (L : m_local x = m_local m). { unfold x. cbn. unfold temp_unban. match goal with |- context [cache_remove ?a ?b] => destruct (cache_remove a b) as [[? ?]|] end; reflexivity. }
    rewrite <- L. apply DQ_dial. rewrite L. apply (DQ_same _ m); auto.
  - apply DQ_dial. exact H.
  - unfold penalize. destruct (is_local m p); auto. destruct (process_penalty _ _ _ _ _) as [s a]. apply (DQ_same _ m); auto. rewrite dq_action. reflexivity.
  - apply (DQ_same _ m); auto. apply dq_disconnect.
  - apply (DQ_same _ m); auto. unfold pending_out. destruct op as [p|]; auto. destruct (is_local m p); auto. destruct (dialing_now m p); auto. destruct (mgr_can_dial g m p); auto.
  - destruct (established g m p a incoming); auto. apply (DQ_same _ m); auto. unfold on_established.
    assert (R : disq (register_connection g now p a incoming m) = disq m) by (unfold register_connection; destruct (peer_banned _ _ _); reflexivity).
    destruct (_ && _); [rewrite dq_disconnect; exact R|exact R].
  - apply (DQ_same _ m); auto. unfold on_closed. destruct (0 <? remaining); auto. rewrite dq_disconnected. destruct (conn_or_disconnecting m p); reflexivity.
  - apply (DQ_same _ m); auto. unfold on_dial_failure. destruct op as [p|]; auto. destruct (is_connected m p); auto. apply dq_disconnected.
  - unfold on_exchange. cbn zeta. destruct (_ <? _); auto. apply DQ_disco; auto.
    + apply put_all_nodup. apply H.
    + intros e He. apply put_all_in in He. destruct He as [He|He]; [apply H; exact He|].
      assert (Hi : forall n (l : list (pid * list maddr)) y, In y (firstn n l) -> In y l) by (intros n l y Hy; rewrite <- (firstn_skipn n l); apply in_app_iff; auto).
      apply Hi in He. apply choose_in in He. apply filter_In in He. destruct e as [p a]. apply eligible_sane. tauto.
  - unfold on_discovered. apply DQ_disco; auto; [apply put_all_nodup; apply H|].
    intros e He. apply put_all_in in He. destruct He as [He|He]; [apply H; exact He|]. apply filter_In in He. destruct e as [p a]. apply eligible_sane. tauto.
  - apply (DQ_same _ m); auto. unfold on_committees. match goal with |- context [let '(_, _) := ?y in _] => destruct y as [s x] end.
    match goal with |- disq (prune_known ?y) = _ => change (disq y = disq m) end. rewrite dq_actions.
    match goal with |- disq (with_store s ?y) = _ => change (disq y = disq m) end. rewrite !dq_forgive_temp, !dq_chase. reflexivity.
  - apply (DQ_same _ m); auto. unfold on_prepare. match goal with |- context [let '(_, _) := ?y in _] => destruct y as [s x] end. rewrite dq_actions.
    match goal with |- disq (with_store s ?y) = _ => change (disq y = disq m) end. apply dq_forgive_temp.
  - apply (DQ_same _ m); auto. unfold add_known. rewrite dq_cache_known. reflexivity.
  - apply (DQ_same _ m); auto. apply dq_cache_known.
  - apply (DQ_same _ m); auto. unfold add_bootstrap. match goal with |- context [match ?y with Some _ => _ | None => _ end] => destruct y end; [reflexivity|]. rewrite dq_cache_known. reflexivity.
  - apply (DQ_same _ m); auto. unfold add_discovered. destruct (negb _); auto. destruct (stale _ _ _); auto. apply dq_cache_known.
  - apply (DQ_same _ m); auto. unfold add_self_advertised. destruct (in_slots _ _); [destruct (stale _ _ _); auto; apply dq_cache_known|]. destruct (N.eqb _ _); auto.
  - apply (DQ_same _ m); auto.
  - apply (DQ_same _ m); auto. unfold committee_rpcs. cbn [fst]. apply dq_chase.
  - rewrite hb_split. set (x := unban_expired _ _).
    assert (E : disq x = disq m) by (unfold x; rewrite dq_expire, dq_prune, dq_maintained; reflexivity).
    pose proof (DQ_same _ _ x E H) as [A B C]. constructor.
    + apply beat_disco_len. exact A.
    + intros e He. apply beat_disco_sub in He. destruct He as [He _]. apply still_sub in He. apply B. tauto.
    + rewrite beat_dials. intros e He. apply in_app_iff in He. destruct He as [He|He]; [apply C; exact He|]. apply to_dial_sub, still_sub in He. apply B. tauto.
  - unfold poll. destruct (m_events m) as [|ev t]; [|apply (DQ_same _ m); auto]. destruct (m_dials m) as [|[p a] t] eqn:Ed; [exact H|].
    destruct H as [A B C]. constructor; auto. intros e He. apply C. rewrite Ed. right. exact He.
  - apply (DQ_same _ m); auto.
Qed.
Lemma DQ_run g l : forall m, DQ (m_local m) m -> DQ (m_local m) (mrun g l m).
Proof.
  induction l as [|e l IH]; intros m H; cbn; auto. change (DQ (m_local m) (mrun g l (mstep g m e))). rewrite <- (mstep_local g m e). apply IH.
  rewrite mstep_local. apply DQ_step. exact H.
Qed.
Lemma run_local g l : forall m, m_local (mrun g l m) = m_local m.
Proof. induction l as [|e l IH]; intros m; cbn; auto. change (m_local (mrun g l (mstep g m e)) = m_local m). rewrite IH. apply mstep_local. Qed.
Lemma DQ_new p dur n : DQ p (mgr_new p dur n).
Proof. constructor; cbn; [constructor|tauto|tauto]. Qed.

(* ---------- who counts ---------- *)
Lemma where_in f s p : Inv false false s -> In p (pids_where f s) <-> exists r, get_peer s p = Some r /\ f (p_status r) = true.
Proof.
  intros HI. unfold pids_where. rewrite in_flat_map. split.
  - intros ([id x] & Hin & H). cbn [fst snd] in H. destruct (f (p_status x)) eqn:E; [|destruct H].
    destruct (peer_id_for id x) as [q|] eqn:Ep; [|destruct H]. destruct H as [<-|[]].
    apply (peers_rec _ _ _ _ _ HI) in Hin. exists x. split; auto. unfold get_peer. rewrite (id_back _ _ _ _ _ _ HI Hin Ep). exact Hin.
  - intros (r & Hr & Hc). exists (identity_for s p, r). split; [apply (peers_rec _ _ _ _ _ HI); exact Hr|]. cbn [fst snd]. rewrite Hc.
    assert (Ep : peer_id_for (identity_for s p) r = Some p).
    { destruct (identity_for s p) as [k|q] eqn:E.
      - destruct (ident_conf _ _ _ _ _ HI E) as (x & Hx & Hp). unfold get_peer in Hr. rewrite E in Hr. cbn. congruence.
      - unfold identity_for in E. destruct (idx_of p s); cbn; congruence. }
    rewrite Ep. left. reflexivity.
Qed.
Lemma where_nodup f s : Inv false false s -> NoDup (pids_where f s).
Proof.
  intros HI. unfold pids_where.
  assert (G : forall l, NoDup (map fst l) -> (forall e, In e l -> In e (peers s)) ->
    NoDup (flat_map (fun e => if f (p_status (snd e)) then match peer_id_for (fst e) (snd e) with Some p => [p] | None => [] end else []) l)).
  { induction l as [|[id r] l IH]; intros Hn Hl; cbn [flat_map]; [constructor|]. inversion Hn as [|? ? N1 N2]; subst.
    assert (IH' := IH N2 (fun e He => Hl e (or_intror He))). cbn [fst snd]. destruct (f (p_status r)); [|exact IH'].
    destruct (peer_id_for id r) as [p|] eqn:Ep; [|exact IH']. cbn [app]. constructor; [|exact IH'].
    intros Hin. apply in_flat_map in Hin. destruct Hin as ([id2 r2] & Hin2 & H2). cbn [fst snd] in H2. destruct (f (p_status r2)); [|destruct H2].
    destruct (peer_id_for id2 r2) as [q|] eqn:Ep2; [|destruct H2]. destruct H2 as [->|[]].
    assert (Hr : rec_of id s = Some r) by (apply (peers_rec _ _ _ _ _ HI); apply Hl; left; auto).
    assert (Hr2 : rec_of id2 s = Some r2) by (apply (peers_rec _ _ _ _ _ HI); apply Hl; right; auto).
    assert (id = id2) by (rewrite <- (id_back _ _ _ _ _ _ HI Hr Ep); apply (id_back _ _ _ _ _ _ HI Hr2 Ep2)). subst id2.
    apply N1. cbn. apply in_map_iff. exists (id, r2). auto. }
  apply G; [apply (proj1 HI)|auto].
Qed.
Lemma other_same c now p ns s q : Inv false false s -> q <> p -> get_peer (fst (update_status c now p ns s)) q = get_peer s q.
Proof.
  intros HI Hq. pose proof (us_frame false false c now p ns s HI) as (Fi & _ & _ & _ & Fr).
  unfold get_peer. rewrite (ident_for_idx _ _ _ Fi). destruct (eqb_dec ident_eqb ieq (identity_for s q) (identity_for s p)) as [E|E]; [|apply Fr; exact E].
  exfalso. destruct (identity_for s p) as [k|x] eqn:Ep.
  - destruct (ident_conf _ _ _ _ _ HI E) as (y & Hy & Hn). destruct (ident_conf _ _ _ _ _ HI Ep) as (z & Hz & Hm). congruence.
  - unfold identity_for in *. destruct (idx_of q s); [discriminate E|]. destruct (idx_of p s); [discriminate Ep|]. congruence.
Qed.
Lemma now_conn c now p a inc s : Inv false false s -> exists r, get_peer (fst (update_status c now p (NConnected a inc) s)) p = Some r /\ is_conn (p_status r) = true.
Proof.
  intros HI. pose proof (us_frame false false c now p (NConnected a inc) s HI) as (Fi & _).
  unfold get_peer. rewrite (ident_for_idx _ _ _ Fi). unfold update_status. rewrite (ensure_eq false false) by auto. cbn [fst].
  unfold to_connected. rewrite made_ident, made_rec_of. rewrite rec_put_same. eexists. split; [reflexivity|].
  unfold register_conn. destruct (p_status (made_rec c now p s)); destruct inc; reflexivity.
Qed.
Definition others (l : list pid) (p : pid) : list pid := filter (fun q => negb (N.eqb q p)) l.
Lemma count_after f c now p a inc s : Inv false false s -> (forall x y, f (Connected x y) = true) ->
  length (pids_where f (fst (update_status c now p (NConnected a inc) s))) = S (length (others (pids_where f s) p)).
Proof.
  intros HI Hf. set (s' := fst _). assert (HI' : Inv false false s') by (apply update_status_inv; auto; intros b Hb h; discriminate h).
  change (S (length (others (pids_where f s) p))) with (length (p :: others (pids_where f s) p)). apply Permutation_length. apply NoDup_Permutation.
  - apply where_nodup; auto.
  - constructor; [|apply NoDup_filter, where_nodup; auto]. intros H. apply filter_In in H. destruct H as [_ H]. rewrite N.eqb_refl in H. discriminate H.
  - intros q. rewrite where_in by auto. cbn [In]. unfold others. rewrite filter_In, where_in by auto. destruct (N.eq_dec q p) as [->|Hne].
    + split; [left; reflexivity|]. intros _. destruct (now_conn c now p a inc s HI) as (r & Hr & Hc). exists r. split; auto.
      destruct (p_status r); try discriminate Hc. apply Hf.
    + unfold s'. rewrite other_same by auto. split; [intros H; right; split; auto; apply negb_true_iff, N.eqb_neq; auto|]. intros [E|[H _]]; auto. congruence.
Qed.
