(* What each call of the peer store (PeersModel) leaves alone, capacity, forgiveness, scores. *)
From Verif Require Import Util AMap PeersModel PeersSpec PeersProofs PeersProofs2 PeersProofs3 PeersProofs4 PeersProofs5.
Local Open Scope nat_scope.
Local Notation ieq := ident_eqb_eq.
Local Notation neq := N.eqb_eq.

Definition frame (id : ident) (s s' : store) : Prop :=
  idx s' = idx s /\ previous s' = previous s /\ current s' = current s /\ next s' = next s /\
  forall j, j <> id -> rec_of j s' = rec_of j s.
Lemma frame_refl id s : frame id s s.
Proof. repeat split; auto. Qed.
Lemma frame_trans id a b d : frame id a b -> frame id b d -> frame id a d.
Proof.
  intros [A1 [A2 [A3 [A4 A5]]]] [B1 [B2 [B3 [B4 B5]]]]. unfold frame. rewrite B1, B2, B3, B4, A1, A2, A3, A4.
  do 4 (split; auto). intros j Hj. rewrite B5, A5; auto.
Qed.
Lemma frame_put id r s : frame id s (put_rec id r s).
Proof. do 4 (split; [reflexivity|]). intros j Hj. apply rec_put_other; auto. Qed.
Lemma frame_bans id t m s : frame id s (set_bans t m s).
Proof. do 4 (split; [reflexivity|]). reflexivity. Qed.
Lemma frame_disc id d s : frame id s (set_disc d s).
Proof. do 4 (split; [reflexivity|]). reflexivity. Qed.
Ltac fr := repeat first [apply frame_refl | apply frame_put | apply frame_bans | apply frame_disc
  | eapply frame_trans; [|apply frame_put] | eapply frame_trans; [|apply frame_disc] | eapply frame_trans; [|apply frame_bans] ].

(* what stays the same in the record a status change is about *)
Definition same_core (r r' : peer) : Prop :=
  p_score r' = p_score r /\ p_oper r' = p_oper r /\ p_net r' = p_net r /\ p_bls r' = p_bls r.
Lemma same_status st r : same_core r (with_status st r).
Proof. repeat split. Qed.
Lemma same_refl r : same_core r r.
Proof. repeat split. Qed.

Lemma set_status_frame p st s : frame (identity_for s p) s (set_status p st s).
Proof. unfold set_status. destruct (rec_of _ s); fr. Qed.
Lemma us_frame st ex c now p ns s : Inv st ex s -> frame (identity_for s p) s (fst (update_status c now p ns s)).
Proof.
  intros HI. unfold update_status. rewrite (ensure_eq st ex) by auto.
  assert (HM : frame (identity_for s p) s (made c now p s)) by (unfold made; destruct (rec_of _ s); fr).
  set (s1 := match ns with NBanned => _ | _ => made c now p s end).
  assert (H1 : frame (identity_for s p) s s1).
  { unfold s1. destruct ns; auto. eapply frame_trans; [exact HM|]. fr. }
  assert (Ei : identity_for s1 p = identity_for s p) by (apply ident_for_idx; apply H1).
  destruct ns as [a inc|b| | | |]; cbn [fst].
  - eapply frame_trans; [exact H1|]. unfold to_connected. rewrite Ei. destruct (rec_of _ s1); [|fr].
    destruct (p_status (made_rec c now p s)); fr.
  - eapply frame_trans; [exact H1|]. unfold to_disconnecting. pose proof (set_status_frame p (Disconnecting b) s1) as HF. rewrite Ei in HF.
    destruct (p_status (made_rec c now p s)); cbn [fst]; exact HF.
  - eapply frame_trans; [exact H1|]. unfold to_dialing. rewrite Ei. destruct (rec_of _ s1); [|fr].
    destruct (p_status (made_rec c now p s)); fr.
  - eapply frame_trans; [exact H1|]. unfold to_disconnected, to_disconnected_banned.
    assert (HF : frame (identity_for s p) s1 (set_status p (Disconnected now) (set_disc (disc s1 + 1) s1))).
    { eapply frame_trans; [apply (frame_disc _ (disc s1 + 1))|]. rewrite <- Ei. apply (set_status_frame p _ (set_disc (disc s1 + 1) s1)). }
    destruct (p_status (made_rec c now p s)) as [| [|]| | | |]; cbn [fst]; auto; [|fr|fr].
    rewrite Ei. destruct (rec_of _ s1); fr.
  - eapply frame_trans; [exact H1|]. unfold to_banned. rewrite Ei. destruct (rec_of _ s1); [|fr].
    destruct (p_status (made_rec c now p s)); cbn [fst]; fr. destruct (is_banned_st (p_status p0)); fr.
  - eapply frame_trans; [exact H1|]. unfold to_unbanned. rewrite Ei. destruct (rec_of _ s1); [|fr].
    destruct (p_status (made_rec c now p s)) as [| [|]| | | |]; cbn [fst]; fr.
Qed.

Lemma rec_disc id d s : rec_of id (set_disc d s) = rec_of id s.
Proof. reflexivity. Qed.
Lemma rec_bans id t m s : rec_of id (set_bans t m s) = rec_of id s.
Proof. reflexivity. Qed.
Lemma us_keep st ex c now p ns s r : Inv st ex s -> rec_of (identity_for s p) s = Some r ->
  (ns = NBanned -> rep c r = RBanned) ->
  exists r', rec_of (identity_for s p) (fst (update_status c now p ns s)) = Some r' /\ same_core r r'.
Proof.
  intros HI Hr Hb. unfold update_status. rewrite (ensure_eq st ex) by auto.
  rewrite (made_id c now p s r Hr). unfold made_rec. rewrite Hr.
  set (s1 := match ns with NBanned => _ | _ => s end).
  assert (H1 : rec_of (identity_for s p) s1 = Some r /\ idx s1 = idx s).
  { unfold s1. destruct ns; auto. unfold ensure_banned. rewrite Hb by auto. split; auto. apply rec_put_same. }
  destruct H1 as [H1 Ex]. assert (Ei : identity_for s1 p = identity_for s p) by (apply ident_for_idx; auto).
  assert (HS : forall st' d, rec_of (identity_for s p) (set_status p st' (set_disc d s1)) = Some (with_status st' r)).
  { intros st' d. unfold set_status. replace (identity_for (set_disc d s1) p) with (identity_for s p) by (symmetry; exact Ei).
    rewrite rec_disc, H1. apply rec_put_same. }
  assert (HS' : forall st', rec_of (identity_for s p) (set_status p st' s1) = Some (with_status st' r)).
  { intros st'. unfold set_status. rewrite Ei, H1. apply rec_put_same. }
  destruct ns as [a inc|b| | | |]; cbn [fst].
  - unfold to_connected. rewrite Ei, H1, rec_put_same. eexists; split; eauto. repeat split.
  - unfold to_disconnecting. destruct (p_status r); cbn [fst]; rewrite ?rec_disc, HS'; eexists; split; eauto; apply same_status.
  - unfold to_dialing. rewrite Ei, H1, rec_put_same. eexists; split; eauto. unfold register_dialing.
    destruct (p_status r); first [apply same_refl|apply same_status].
  - unfold to_disconnected, to_disconnected_banned.
    destruct (p_status r) as [| [|]| | | |]; cbn [fst]; try (rewrite HS; eexists; split; eauto; apply same_status);
      try (rewrite H1; eexists; split; eauto; apply same_refl).
    rewrite Ei, H1. unfold add_banned. rewrite rec_bans, rec_put_same. eexists; split; eauto; apply same_status.
  - unfold to_banned. rewrite Ei, H1. unfold add_banned.
    destruct (p_status r) eqn:Es; cbn [fst is_banned_st]; rewrite ?rec_put_same; try (eexists; split; eauto; apply same_status).
    rewrite H1. eexists; split; eauto; apply same_refl.
  - unfold to_unbanned. rewrite Ei, H1. unfold remove_banned.
    destruct (p_status r) as [| [|]| | | |]; cbn [fst]; rewrite ?rec_disc, ?rec_bans, ?rec_put_same;
      try (rewrite H1; eexists; split; eauto; apply same_refl); eexists; split; eauto; apply same_status.
Qed.
(* every record survives a status change with its score *)
Lemma us_keep_all st ex c now p ns s id r : Inv st ex s -> rec_of id s = Some r ->
  (ns = NBanned -> forall x, get_peer s p = Some x -> rep c x = RBanned) ->
  exists r', rec_of id (fst (update_status c now p ns s)) = Some r' /\ same_core r r'.
Proof.
  intros HI Hr Hb. destruct (eqb_dec ident_eqb ieq id (identity_for s p)) as [->|Hne].
  - eapply us_keep; eauto.
  - exists r. split; [|apply same_refl]. destruct (us_frame st ex c now p ns s HI) as [_ [_ [_ [_ H]]]]. rewrite H; auto.
Qed.
Lemma status_all_keep st ex c now ns l : (forall b, ns <> NDisconnecting b) -> ns <> NBanned -> forall s id r, Inv st ex s -> rec_of id s = Some r ->
  exists r', rec_of id (status_all c now ns l s) = Some r' /\ same_core r r'.
Proof.
  intros Hd Hn. induction l as [|p l IH]; intros s id r HI Hr; cbn.
  - exists r. split; auto. apply same_refl.
  - destruct (us_keep_all st ex c now p ns s id r HI Hr) as [r1 [H1 S1]]; [intros E; contradiction|].
    destruct (IH (fst (update_status c now p ns s)) id r1) as [r2 [H2 S2]]; auto.
    + apply update_status_inv; auto. intros b E. exfalso. eapply Hd; eauto.
    + exists r2. split; auto. destruct S1 as [A1 [A2 [A3 A4]]], S2 as [B1 [B2 [B3 B4]]]. repeat split; congruence.
Qed.
Lemma status_all_frame st ex c now ns l : (forall b, ns <> NDisconnecting b) -> forall s, Inv st ex s ->
  idx (status_all c now ns l s) = idx s /\ previous (status_all c now ns l s) = previous s /\
  current (status_all c now ns l s) = current s /\ next (status_all c now ns l s) = next s /\
  forall id, (forall p, In p l -> identity_for s p <> id) -> rec_of id (status_all c now ns l s) = rec_of id s.
Proof.
  intros Hd. induction l as [|p l IH]; intros s HI; [cbn; auto 10|].
  change (status_all c now ns (p :: l) s) with (status_all c now ns l (fst (update_status c now p ns s))).
  destruct (us_frame st ex c now p ns s HI) as [A1 [A2 [A3 [A4 A5]]]].
  assert (HI1 : Inv st ex (fst (update_status c now p ns s))).
  { apply update_status_inv; auto. intros b E. exfalso. eapply Hd; eauto. }
  destruct (IH _ HI1) as [B1 [B2 [B3 [B4 B5]]]].
  do 4 (split; [congruence|]). intros id Hid. rewrite B5.
  - apply A5. intros E. apply (Hid p); [left; auto|auto].
  - intros q Hq. rewrite (ident_for_idx _ s q A1). apply Hid; right; auto.
Qed.

(* the peer id of a record leads back to it *)
Lemma id_back st ex s id r p : Inv st ex s -> rec_of id s = Some r -> peer_id_for id r = Some p -> identity_for s p = id.
Proof.
  intros [W _] Hr Hp. destruct id as [k|q]; cbn in Hp.
  - assert (H : IX p (idx s) = Some k) by (apply (wf_idx _ _ W); exists r; auto).
    unfold identity_for, idx_of. unfold IX in H. rewrite H; auto.
  - inversion Hp; subst q. destruct (wf_un _ _ W _ _ Hr) as [_ [_ H]].
    unfold identity_for, idx_of. unfold IX in H. rewrite H; auto.
Qed.
Lemma id_known st ex s id r : Inv st ex s -> rec_of id s = Some r -> exists p, peer_id_for id r = Some p.
Proof.
  intros [W _] Hr. destruct id as [k|q]; cbn; eauto. destruct (wf_conf _ _ W _ _ Hr) as [_ H]; auto.
Qed.
Lemma peers_rec st ex s id r : Inv st ex s -> In (id, r) (peers s) <-> rec_of id s = Some r.
Proof.
  intros [W _]. split.
  - apply In_get; [apply ieq|apply W].
  - apply get_In, ieq.
Qed.

(* ---------- heartbeat ---------- *)
Lemma beat_rec c now s id : rec_of id (beat c now s) =
  match rec_of id s with Some r => Some (fst (peer_heartbeat c now (exempt s id r) r)) | None => None end.
Proof. rewrite beat_eq. unfold rec_of. cbn [peers set_peers]. apply mapP_get. Qed.
Lemma hb_first st ex c now s id r : Inv st ex s -> rec_of id s = Some r ->
  let s1 := status_all c now NDisconnected (timed_out c now s) s in
  exists r1, rec_of id s1 = Some r1 /\ same_core r r1 /\
    (match p_status r with Dialing _ => True | _ => r1 = r end).
Proof.
  intros HI Hr s1.
  destruct (status_all_keep st ex c now NDisconnected (timed_out c now s) ltac:(congruence) ltac:(congruence) s id r HI Hr) as [r1 [H1 S1]].
  exists r1. split; auto. split; auto.
  assert (Hst : (forall t, p_status r <> Dialing t) -> r1 = r).
  { intros Hnd. destruct (status_all_frame st ex c now NDisconnected (timed_out c now s) ltac:(congruence) s HI) as [_ [_ [_ [_ HF]]]].
    assert (E : rec_of id s1 = rec_of id s).
    { apply HF. intros p Hp. unfold timed_out in Hp. apply in_flat_map in Hp as [[j x] [Hin Hp]]. cbn in Hp.
      destruct (p_status x) eqn:Ex; try destruct Hp. destruct (_ <? _)%N; [|destruct Hp].
      destruct (peer_id_for j x) as [q|] eqn:Eq; [|destruct Hp]. destruct Hp as [<-|[]].
      apply (peers_rec st ex) in Hin; auto. rewrite (id_back st ex s j x q HI Hin Eq).
      intros ->. assert (x = r) by congruence. subst. apply (Hnd t); auto. }
    unfold s1 in *. congruence. }
  destruct (p_status r); auto; apply Hst; congruence.
Qed.
(* a record the heartbeat does not find to have been unbanned only has its score updated *)
Lemma hb_rec st ex c now s id r : Inv st ex s -> rec_of id s = Some r ->
  exists r', rec_of id (heartbeat c now s) = Some r' /\
    p_score r' = p_score (fst (peer_heartbeat c now (exempt s id r) r)) /\
    p_oper r' = p_oper r /\ p_net r' = p_net r /\ p_bls r' = p_bls r /\
    (rep c r <> RBanned -> (forall t, p_status r <> Dialing t) -> p_status r' = p_status r).
Proof.
  intros HI Hr. unfold heartbeat.
  set (s1 := status_all c now NDisconnected (timed_out c now s) s).
  assert (HI1 : Inv st ex s1) by (apply status_all_inv; auto; congruence).
  destruct (hb_first st ex c now s id r HI Hr) as [r1 [H1 [S1 Hd]]]. fold s1 in H1.
  destruct (status_all_frame st ex c now NDisconnected (timed_out c now s) ltac:(congruence) s HI) as [F1 [F2 [F3 [F4 _]]]]. fold s1 in F1, F2, F3, F4.
  destruct S1 as [A1 [A2 [A3 A4]]].
  assert (Ee : exempt s1 id r1 = exempt s id r).
  { unfold exempt, in_slots. rewrite F2, F3, F4, A2. auto. }
  set (s2 := beat c now s1).
  assert (HI2 : Inv st ex s2) by (apply beat_inv; auto).
  assert (H2 : rec_of id s2 = Some (fst (peer_heartbeat c now (exempt s1 id r1) r1))) by (unfold s2; rewrite beat_rec, H1; auto).
  destruct (status_all_keep st ex c now NUnbanned (unbanned_now c now s1) ltac:(congruence) ltac:(congruence) s2 id _ HI2 H2)
    as [r3 [H3 [B1 [B2 [B3 B4]]]]].
  exists r3. split; auto.
  assert (Esc : p_score (fst (peer_heartbeat c now (exempt s1 id r1) r1)) = p_score (fst (peer_heartbeat c now (exempt s id r) r))).
  { rewrite Ee. unfold peer_heartbeat. destruct (exempt s id r); cbn; congruence. }
  assert (Ek : forall x y, p_oper (fst (peer_heartbeat c now x y)) = p_oper y /\ p_net (fst (peer_heartbeat c now x y)) = p_net y /\
                p_bls (fst (peer_heartbeat c now x y)) = p_bls y /\ p_status (fst (peer_heartbeat c now x y)) = p_status y).
  { intros x y. unfold peer_heartbeat. destruct x; cbn; auto. }
  destruct (Ek (exempt s1 id r1) r1) as [K1 [K2 [K3 K4]]].
  split; [congruence|]. split; [congruence|]. split; [congruence|]. split; [congruence|].
  intros Hnb Hnd.
  assert (Er : r1 = r) by (destruct (p_status r); auto; exfalso; eapply Hnd; eauto).
  destruct (status_all_frame st ex c now NUnbanned (unbanned_now c now s1) ltac:(congruence) s2 HI2) as [_ [_ [_ [_ HF]]]].
  rewrite HF in H3.
  - rewrite H3 in H2. assert (E3 : r3 = fst (peer_heartbeat c now (exempt s1 id r1) r1)) by congruence.
    rewrite E3, K4, Er. auto.
  - intros p Hp Ep. unfold unbanned_now in Hp. apply in_flat_map in Hp as [[j x] [Hin Hp]]. cbn in Hp.
    destruct (snd (peer_heartbeat c now (exempt s1 j x) x)) eqn:Eu; [|destruct Hp].
    destruct (peer_id_for j x) as [q|] eqn:Eq; [|destruct Hp]. destruct Hp as [<-|[]].
    apply (peers_rec st ex) in Hin; auto.
    assert (Ej : identity_for s1 q = j) by (eapply id_back; eauto).
    assert (Ej2 : identity_for s2 q = identity_for s1 q) by reflexivity.
    assert (Hj : j = id) by congruence. rewrite Hj in Hin. assert (Hx : x = r) by congruence.
    unfold peer_heartbeat in Eu. destruct (exempt s1 j x); cbn [snd] in Eu; [discriminate Eu|].
    apply andb_true_iff in Eu as [Eu _]. rewrite Hx in Eu. apply Hnb. destruct (rep c r); auto; discriminate Eu.
Qed.

(* ---------- capacity ---------- *)
Lemma drop_cnt_other f ids : NoDup ids -> forall s, NoDup (map fst (peers s)) ->
  (forall id, In id ids -> exists r, rec_of id s = Some r /\ f r = false) ->
  cnt f (peers (drop_all ids s)) = cnt f (peers s).
Proof.
  induction ids as [|id ids IH]; intros Hd s Hn Hf; cbn; auto. inversion Hd as [|? ? H1 H2]; subst.
  set (t := opt_release (rec_of id s) (fst (evict id s))).
  destruct (Hf id (or_introl eq_refl)) as [r [Hr Hfr]].
  assert (Ep : peers t = del ident_eqb id (peers s)).
  { unfold t. rewrite Hr, (evict_eq _ _ _ Hr). cbn [opt_release fst]. rewrite release_peers. auto. }
  change (cnt f (peers (drop_all ids t)) = cnt f (peers s)).
  rewrite IH; auto.
  - rewrite Ep. pose proof (cnt_del ident_eqb ieq f _ _ _ Hn Hr) as H. rewrite Hfr in H. lia.
  - rewrite Ep. apply NoDup_del; auto.
  - intros j Hj. destruct (Hf j (or_intror Hj)) as [x [Hx Hfx]]. exists x. split; auto.
    unfold t. rewrite drop_one_rec. destruct (ident_eqb id j) eqn:E; auto. apply ieq in E; subst. contradiction.
Qed.
Lemma existsb_ident j l : existsb (ident_eqb j) l = true <-> In j l.
Proof.
  rewrite existsb_exists. split.
  - intros [x [Hx E]]. apply ieq in E; subst; auto.
  - intros H. exists j. split; auto. apply (eqb_rf ident_eqb ieq).
Qed.
(* removing the oldest records in one state *)
Record oldest_gone (since : status -> option N) (s s' : store) : Prop := mkOldest {
  og_rest : forall id r, rec_of id s' = Some r -> rec_of id s = Some r;
  og_other : forall id r, rec_of id s = Some r -> since (p_status r) = None -> rec_of id s' = Some r;
  og_old : forall id r t, rec_of id s = Some r -> since (p_status r) = Some t -> rec_of id s' = None ->
    forall id2 r2 t2, rec_of id2 s' = Some r2 -> since (p_status r2) = Some t2 -> (t <= t2)%N }.
Lemma drop_oldest st ex c n since s : Inv st ex s ->
  oldest_gone since s (drop_all (map snd (collect c n since s)) s) /\
  cnt (fun r => match since (p_status r) with Some _ => true | None => false end) (peers (drop_all (map snd (collect c n since s)) s))
    = cnt (fun r => match since (p_status r) with Some _ => true | None => false end) (peers s)
      - Nat.min n (cnt (fun r => match since (p_status r) with Some _ => true | None => false end) (peers s)) /\
  (forall f, (forall r, f r = true -> since (p_status r) = None) ->
     cnt f (peers (drop_all (map snd (collect c n since s)) s)) = cnt f (peers s)).
Proof.
  intros HI. pose proof (collect_ok c n since s (wf_nd _ _ (proj1 HI))) as [Hs Hnd Hl Ho].
  set (h := collect c n since s) in *.
  assert (Hrec : forall id, In id (map snd h) -> exists r t, rec_of id s = Some r /\ since (p_status r) = Some t /\ In (t, id) h).
  { intros id Hid. apply in_map_iff in Hid as [[t j] [Ej Hin]]. cbn in Ej; subst j.
    pose proof (Hs _ Hin) as Hc. apply cands_in in Hc as [r [Hr Ht]]; [|apply (proj1 HI)]. eauto. }
  split; [constructor|split].
  - intros id r Hr. rewrite drop_rec in Hr. destruct (existsb _ _); [discriminate Hr|auto].
  - intros id r Hr Hn. rewrite drop_rec. destruct (existsb (ident_eqb id) (map snd h)) eqn:E; auto.
    exfalso. apply existsb_ident in E. apply Hrec in E as [x [t [Hx [Ht _]]]]. congruence.
  - intros id r t Hr Ht Hgone id2 r2 t2 Hr2 Ht2. rewrite drop_rec in Hgone, Hr2.
    destruct (existsb (ident_eqb id) (map snd h)) eqn:E; [|congruence].
    destruct (existsb (ident_eqb id2) (map snd h)) eqn:E2; [discriminate Hr2|].
    apply existsb_ident in E. destruct (Hrec _ E) as [x [t' [Hx [Ht' Hin]]]].
    assert (x = r) by congruence. subst. assert (t' = t) by congruence. subst.
    apply (Ho (t, id) (t2, id2)); auto.
    + apply cands_in; [apply (proj1 HI)|eauto].
    + intros H2. apply (in_map snd) in H2. apply existsb_ident in H2. cbn in H2. congruence.
  - rewrite drop_cnt; auto.
    + rewrite map_length, Hl, cands_len. auto.
    + apply (proj1 HI).
    + intros id Hid. destruct (Hrec _ Hid) as [r [t [Hr [Ht _]]]]. exists r. split; auto. rewrite Ht; auto.
  - intros f Hf. apply drop_cnt_other; auto; [apply (proj1 HI)|].
    intros id Hid. destruct (Hrec _ Hid) as [r [t [Hr [Ht _]]]]. exists r. split; auto.
    destruct (f r) eqn:E; auto. apply Hf in E. congruence.
Qed.
Lemma cnt_ext f g (P : list (ident * peer)) : (forall r, f r = g r) -> cnt f P = cnt g P.
Proof. intros H. unfold cnt. induction P as [|[j r] P IH]; cbn; auto. rewrite H. destruct (g r); cbn; auto. Qed.
Lemma disc_cnt (P : list (ident * peer)) : cnt (fun r => match disc_since (p_status r) with Some _ => true | None => false end) P = cnt in_disconnected P.
Proof. apply cnt_ext. intros r. unfold in_disconnected. destruct (p_status r); auto. Qed.
Lemma ban_cnt (P : list (ident * peer)) : cnt (fun r => match banned_since (p_status r) with Some _ => true | None => false end) P = cnt in_banned P.
Proof. apply cnt_ext. intros r. unfold in_banned. destruct (p_status r); auto. Qed.

(* ---------- forgiveness ---------- *)
Definition forgiven (c : cfg) (s : store) (k : bls) : Prop :=
  forall r, rec_of (Confirmed k) s = Some r ->
    in_banned r = false /\ p_status r <> Disconnecting true /\ s_agg (p_score r) = c_max c /\
    forall x, In x (p_ips r) -> ip_count x (b_ips s) = 0.
Lemma dec_ips_le x ips : forall m, ip_count x (fold_left dec_ip ips m) <= ip_count x m.
Proof.
  induction ips as [|y ips IH]; intros m; cbn; auto. specialize (IH (dec_ip m y)). rewrite dec_ip_count in IH. lia.
Qed.
Lemma forgive_eff st c now s k : Inv st false s ->
  (forall j, j <> Confirmed k -> rec_of j (forgive c now s k) = rec_of j s) /\
  (forall x, ip_count x (b_ips (forgive c now s k)) <= ip_count x (b_ips s)) /\
  forgiven c (forgive c now s k) k /\
  (rec_of (Confirmed k) s <> None -> rec_of (Confirmed k) (forgive c now s k) <> None) /\
  (rec_of (Confirmed k) s = None -> rec_of (Confirmed k) (forgive c now s k) = None).
Proof.
  intros HI. unfold forgive. destruct (rec_of (Confirmed k) s) as [r0|] eqn:Hr.
  2:{ split; auto. split; auto. split; [intros r E; congruence|]. split; congruence. }
  destruct (p_net r0) as [p|] eqn:Hp.
  2:{ exfalso. destruct (wf_conf _ _ (proj1 HI) _ _ Hr) as [_ [q Hq]]. congruence. }
  assert (Hi : identity_for s p = Confirmed k) by (apply (id_back st false s (Confirmed k) r0); auto).
  rewrite (ensure_eq st false) by auto. cbn [fst].
  rewrite (made_id c now p s r0) by (rewrite Hi; auto).
  assert (Em : made_rec c now p s = r0) by (unfold made_rec; rewrite Hi, Hr; auto). rewrite Em.
  set (s2 := match p_status r0 with
             | Disconnecting true | Banned _ => fst (update_status c now p NUnbanned s)
             | _ => s end).
  assert (H2 : exists r2, rec_of (Confirmed k) s2 = Some r2 /\ in_banned r2 = false /\ p_status r2 <> Disconnecting true).
  { unfold s2. destruct (p_status r0) as [i o|[|]|t|t|t|] eqn:Es;
      try (exists r0; split; auto; unfold in_banned; rewrite Es; split; [reflexivity|congruence]).
    - unfold update_status. rewrite (ensure_eq st false) by auto. rewrite Em, (made_id c now p s r0) by (rewrite Hi; auto).
      unfold to_unbanned. rewrite Hi, Hr, Es. cbn [fst]. rewrite rec_put_same.
      eexists. split; eauto. split; [reflexivity|]. cbn. congruence.
    - unfold update_status. rewrite (ensure_eq st false) by auto. rewrite Em, (made_id c now p s r0) by (rewrite Hi; auto).
      unfold to_unbanned. rewrite Hi, Hr, Es. cbn [fst]. rewrite rec_disc. unfold remove_banned. rewrite rec_bans, rec_put_same.
      eexists. split; eauto. split; [reflexivity|]. cbn. congruence. }
  assert (H3 : forall j, j <> Confirmed k -> rec_of j s2 = rec_of j s).
  { intros j Hj. destruct (us_frame st false c now p NUnbanned s HI) as [_ [_ [_ [_ HF]]]]. rewrite Hi in HF.
    unfold s2. destruct (p_status r0) as [i o|[|]|t|t|t|]; auto. }
  assert (H4 : forall x, ip_count x (b_ips s2) <= ip_count x (b_ips s)).
  { intros x. assert (HU : ip_count x (b_ips (fst (update_status c now p NUnbanned s))) <= ip_count x (b_ips s)).
    { unfold update_status. rewrite (ensure_eq st false) by auto. rewrite Em, (made_id c now p s r0) by (rewrite Hi; auto).
      unfold to_unbanned. rewrite Hi, Hr. destruct (p_status r0) as [i o|[|]|t|t|t|]; cbn [fst]; auto.
      cbn [set_disc remove_banned set_bans put_rec set_peers b_ips b_total disc]. apply dec_ips_le. }
    unfold s2. destruct (p_status r0) as [i o|[|]|t|t|t|]; auto. }
  destruct H2 as [r2 [Hr2 [Hb2 Hd2]]]. rewrite Hr2.
  assert (E1 : rec_of (Confirmed k) (remove_validator_ip (p_ips r2) (put_rec (Confirmed k) (with_score (score_max c now) r2) s2))
     = Some (with_score (score_max c now) r2)) by (unfold remove_validator_ip; rewrite rec_bans; apply rec_put_same).
  split; [|split; [|split; [|split]]].
  - intros j Hj. unfold remove_validator_ip. rewrite rec_bans, rec_put_other by auto. auto.
  - intros x. cbn [remove_validator_ip set_bans b_ips put_rec set_peers]. rewrite del_ips_count. destruct (memN x (p_ips r2)); [lia|auto].
  - intros r Hr'. rewrite E1 in Hr'. inversion Hr'; subst r. split; [exact Hb2|]. split; [exact Hd2|]. split; [reflexivity|].
    intros x Hx. cbn [remove_validator_ip set_bans b_ips put_rec set_peers]. rewrite del_ips_count.
    cbn in Hx. apply memN_In in Hx. rewrite Hx. auto.
  - intros _. rewrite E1. congruence.
  - congruence.
Qed.
Lemma forgiven_stays st c now s k k' : Inv st false s -> forgiven c s k -> forgiven c (forgive c now s k') k.
Proof.
  intros HI Hf. destruct (forgive_eff st c now s k' HI) as [A [B [C _]]].
  destruct (N.eq_dec k k') as [->|Hne]; auto.
  intros r Hr. rewrite A in Hr by congruence. destruct (Hf r Hr) as [F1 [F2 [F3 F4]]]. do 3 (split; auto).
  intros x Hx. specialize (B x). rewrite (F4 x Hx) in B. lia.
Qed.
Lemma forgives_eff st c now l : forall s, Inv st false s ->
  forall k, In k l \/ forgiven c s k -> forgiven c (fold_left (forgive c now) l s) k.
Proof.
  induction l as [|k' l IH]; intros s HI k Hk; cbn.
  - destruct Hk as [[]|Hk]; auto.
  - apply IH; [apply forgive_inv; auto|]. destruct Hk as [[->|Hk]|Hk]; auto.
    + right. apply (forgive_eff st c now s k HI).
    + right. apply (forgiven_stays st); auto.
Qed.

(* ---------- scores ---------- *)
Lemma s_upd_lock c pen s : s_banned c s = true -> s_upd (score_penalty c pen s) = s_upd s.
Proof. intros H. unfold score_penalty, update_score. cbn. unfold s_banned in *. cbn. rewrite H. reflexivity. Qed.
Lemma rep_banned c r : rep c r = RBanned <-> (s_agg (p_score r) <= c_ban c)%Z.
Proof.
  unfold rep, reputation_of. destruct (_ <=? c_ban c)%Z eqn:E.
  - apply Z.leb_le in E. tauto.
  - apply Z.leb_gt in E. destruct (_ <=? _)%Z; split; try congruence; lia.
Qed.
