(* A peer that becomes recorded as banned is announced as banned. *)
From Verif Require Import Util AMap PeersModel PeersSpec PeersProofs PeersProofs2 PeersProofs3 PeersProofs4 PeersProofs5 PeersProofs6 CacheModel CacheSpec CacheProofs MgrModel MgrSpec MgrProofs MgrProofs2 MgrProofs3.
Local Open Scope N_scope.
Local Notation ieq := ident_eqb_eq.

Definition barred (s : store) (p : pid) : bool :=
  match get_peer s p with Some r => is_banned_st (p_status r) | None => false end.
Lemma us_ban_act c now p ns s : Inv false false s -> barred (fst (update_status c now p ns s)) p = true -> barred s p = false ->
  snd (update_status c now p ns s) = ABan.
Proof.
  intros HI HA HB. pose proof (us_frame false false c now p ns s HI) as (Fi & _). 
  unfold barred, get_peer in HA. rewrite (ident_for_idx _ _ _ Fi) in HA. clear Fi.
  unfold update_status in *. rewrite (ensure_eq false false) in * by auto.
  pose proof (made_rec_of c now p s) as Hr. pose proof (made_ident c now p s) as Ei.
  assert (Hb : is_banned_st (p_status (made_rec c now p s)) = false).
  { unfold barred, get_peer in HB. unfold made_rec. destruct (rec_of (identity_for s p) s); auto. }
  set (r := made_rec c now p s) in *. set (s1 := made c now p s) in *. set (id := identity_for s p) in *.
  destruct ns as [a inc|b| | | |]; cbn [fst snd] in *.
  - unfold to_connected in HA. rewrite Ei, Hr in HA. rewrite rec_put_same in HA. unfold register_conn in HA. destruct inc, (p_status r); cbn in HA; discriminate HA.
  - unfold to_disconnecting in *. unfold set_status in HA. rewrite Ei, Hr in HA.
    destruct (p_status r); cbn [fst] in HA; rewrite ?rec_disc, rec_put_same in HA; cbn in HA; discriminate HA.
  - unfold to_dialing in HA. rewrite Ei, Hr, rec_put_same in HA. unfold register_dialing in HA. destruct (p_status r) eqn:Es; cbn in HA; rewrite ?Es in HA; discriminate.
  - unfold to_disconnected in *. destruct (p_status r) as [| [|]| | | |] eqn:Es; cbn [fst snd] in *; try discriminate Hb; auto;
      unfold set_status in HA; try (change (identity_for (set_disc (disc s1 + 1) s1) p) with (identity_for s1 p) in HA; rewrite Ei, rec_disc, Hr, rec_put_same in HA; discriminate HA).
    rewrite Hr, Es in HA. discriminate HA.
  - unfold to_banned in *. set (s2 := put_rec id _ s1) in *.
    assert (Ei2 : identity_for s2 p = id) by exact Ei.
    rewrite Ei2 in *. unfold s2 in *. rewrite rec_put_same in *. 
    destruct (p_status r) eqn:Es; try discriminate Hb; cbn [fst snd] in *; auto; rewrite rec_put_same in HA; discriminate HA.
  - unfold to_unbanned in *. rewrite Ei, Hr in *. destruct (p_status r) as [| [|]| | | |] eqn:Es; cbn [fst snd] in *; try discriminate Hb;
      try (rewrite Hr, Es in HA; discriminate HA). rewrite rec_put_same in HA. discriminate HA.
Qed.
Lemma penalty_ban_act c now p pen s : Inv false false s -> barred (fst (process_penalty c now p pen s)) p = true -> barred s p = false ->
  snd (process_penalty c now p pen s) = ABan.
Proof.
  intros HI HA HB. unfold process_penalty in *. destruct (rec_of (identity_for s p) s) as [r|] eqn:Hr; [|cbn in HA; congruence].
  set (r' := apply_penalty c pen _ r) in *.
  assert (Hst : p_status r' = p_status r) by (apply (penalty_keys c pen (trust_basis s (identity_for s p)) r)).
  assert (H1 : Inv false false (put_rec (identity_for s p) r' s)).
  { pose proof (penalty_keys c pen (trust_basis s (identity_for s p)) r) as K. cbv zeta in K. fold r' in K.
    eapply Inv_same; eauto; apply K. }
  assert (B1 : barred (put_rec (identity_for s p) r' s) p = false).
  { unfold barred, get_peer in *. change (identity_for (put_rec (identity_for s p) r' s) p) with (identity_for s p).
    rewrite rec_put_same. rewrite Hr in HB. rewrite Hst. exact HB. }
  destruct (rep_eqb _ _); [cbn [fst snd] in *; congruence|]. destruct (rep c r'); [cbn [fst snd] in *; congruence| |].
  - destruct (is_conn_or_dial _); apply us_ban_act; auto.
  - apply us_ban_act; auto.
Qed.
Lemma evict_sub id t j r : rec_of j (fst (evict id t)) = Some r -> rec_of j t = Some r.
Proof.
  unfold evict. destruct (rec_of id t) as [x|] eqn:E; [|auto].
  assert (G : rec_of j (del_rec id t) = Some r -> rec_of j t = Some r).
  { unfold rec_of, del_rec. cbn. destruct (eqb_dec ident_eqb ieq j id) as [->|Hne]; [rewrite get_del_same; discriminate|].
    rewrite (get_del_other ident_eqb ieq) by auto. auto. }
  destruct id as [k|q]; [destruct (p_net x)|]; exact G.
Qed.
Lemma pruned_ids c s p : In p (pruned_pids c s) ->
  exists id r, In id (map snd (collect c (b_total s - c_max_banned c) banned_since s)) /\ rec_of id s = Some r /\ peer_id_for id r = Some p.
Proof.
  unfold pruned_pids. cbv zeta. set (h := collect c _ banned_since s).
  assert (G : forall l acc, (forall e, In e l -> In e h) -> (forall j r, rec_of j (fst acc) = Some r -> rec_of j s = Some r) ->
    (forall q, In q (snd acc) -> exists id r, In id (map snd h) /\ rec_of id s = Some r /\ peer_id_for id r = Some q) ->
    forall q, In q (snd (fold_left (fun acc e =>
         let '(t, out) := acc in
         let '(t', o) := evict (snd e) t in
         (remove_banned (ips_of (snd e) s) t',
          match o with
          | Some r => match peer_id_for (snd e) r with Some p => out ++ [p] | None => out end
          | None => out
          end)) l acc)) -> exists id r, In id (map snd h) /\ rec_of id s = Some r /\ peer_id_for id r = Some q).
  { induction l as [|e l IH]; intros [t out] Hl Ht Ho q Hq; cbn [fold_left] in Hq; [auto|]. eapply IH; [| | |exact Hq].
    - intros x Hx. apply Hl. right. auto.
    - cbn [fst snd] in *. intros j r. pose proof (evict_sub (snd e) t j r) as E. destruct (evict (snd e) t) as [t' o]. cbn [fst] in *.
      unfold remove_banned. rewrite rec_bans. auto.
    - cbn [fst snd] in *. intros q' Hq'. 
      assert (Eo : snd (evict (snd e) t) = rec_of (snd e) t).
      { unfold evict. destruct (rec_of (snd e) t) as [x|]; auto. destruct (snd e); [destruct (p_net x)|]; auto. }
      destruct (evict (snd e) t) as [t' o]. cbn [fst snd] in *. subst o.
      destruct (rec_of (snd e) t) as [r|] eqn:Er; [|auto]. destruct (peer_id_for (snd e) r) as [q0|] eqn:Ep; [|auto].
      apply in_app_iff in Hq'. destruct Hq' as [Hq'|[<-|[]]]; [auto|]. exists (snd e), r. split; [apply in_map, Hl; left; auto|auto]. }
  apply G; auto. intros q [].
Qed.
(* what closing a connection does to the store and which actions come with it *)
Lemma get_peer_id s p r : Inv false false s -> get_peer s p = Some r -> peer_id_for (identity_for s p) r = Some p.
Proof.
  intros HI Hr. destruct (identity_for s p) as [k|q] eqn:E.
  - destruct (ident_conf _ _ _ _ _ HI E) as (x & Hx & Hp). unfold get_peer in Hr. rewrite E in Hr. cbn. congruence.
  - unfold identity_for in E. destruct (idx_of p s); cbn; congruence.
Qed.
Lemma close_ban c now p s : Inv false false s -> let '(s', a, out) := register_disconnected_a c now p s in
  barred s' p = true -> ~ In p out /\ (barred s p = false -> a = ABan).
Proof.
  intros HI. unfold register_disconnected_a.
  pose proof (us_ban_act c now p NDisconnected s HI) as UA.
  assert (HI1 : Inv false false (fst (update_status c now p NDisconnected s))) by (apply update_status_inv; auto; intros b E; discriminate E).
  pose proof (us_frame false false c now p NDisconnected s HI) as (Fi & _).
  destruct (update_status c now p NDisconnected s) as [s1 a]. cbn [fst snd] in *.
  assert (E2 : prune_disconnected c s1 = drop_all (map snd (collect c (disc s1 - c_max_disc c) disc_since s1)) s1) by (apply prune_disc_eq; apply (proj1 HI1)).
  assert (HI2 : Inv false false (prune_disconnected c s1)) by (rewrite E2; apply drop_inv; auto).
  set (s2 := prune_disconnected c s1) in *.
  assert (E3 : prune_banned c s2 = drop_all (map snd (collect c (b_total s2 - c_max_banned c) banned_since s2)) s2) by (apply prune_banned_eq; apply (proj1 HI2)).
  assert (HI3 : Inv false false (prune_banned c s2)) by (rewrite E3; apply drop_inv; auto).
  intros HB. unfold barred in HB. destruct (get_peer (prune_banned c s2) p) as [r|] eqn:Er; [|discriminate HB].
  pose proof (get_peer_id _ _ _ HI3 Er) as Hp. unfold get_peer in Er. set (id := identity_for (prune_banned c s2) p) in *.
  rewrite E3, drop_rec in Er. match type of Er with (if ?x then _ else _) = _ => destruct x eqn:Ex end; [discriminate Er|].
  assert (I2 : identity_for s2 p = id) by (eapply id_back; eauto).
  assert (Er1 : rec_of id s1 = Some r).
  { rewrite E2, drop_rec in Er. match type of Er with (if ?x then _ else _) = _ => destruct x end; [discriminate Er|auto]. }
  assert (I1 : identity_for s1 p = id) by (eapply id_back; eauto).
  split.
  - intros Hin. apply pruned_ids in Hin. destruct Hin as (id' & r' & Hin & Hr' & Hp').
    assert (id' = id) by (pose proof (id_back _ _ _ _ _ _ HI2 Hr' Hp'); congruence). subst id'.
    apply existsb_ident in Hin. congruence.
  - intros Hs. apply UA; auto. unfold barred, get_peer. rewrite I1, Er1. exact HB.
Qed.

Lemma bl_unbans m l p : blacklisted (with_events (m_events m ++ map PUnbanned l) m) p = blacklisted m p && negb (memN p l).
Proof. unfold blacklisted. cbn. rewrite lw_app, lw_unbans. reflexivity. Qed.
Lemma ban_announced p m : blacklisted (process_ban p m) p = true.
Proof. unfold process_ban. rewrite bl_push, N.eqb_refl. reflexivity. Qed.
