(* Facts about every record of a reachable peer store (PeersModel): the addresses it was seen on, the
   range of its score. One induction over all the calls serves both. *)
From Verif Require Import Util AMap PeersModel PeersSpec PeersProofs PeersProofs2 PeersProofs3 PeersProofs4.
Local Open Scope nat_scope.

Definition addr_in (S : ipaddr -> Prop) (a : maddr) : Prop := match a_ip a with Some x => S x | None => True end.
Record closed (c : cfg) (S : ipaddr -> Prop) (Q : peer -> Prop) : Prop := mkClosed {
  q_status : forall st r, Q r -> Q (with_status st r);
  q_pen : forall pen r, Q r -> Q (with_score (score_penalty c pen (p_score r)) r);
  q_upd : forall now r, Q r -> Q (with_score (score_update c now (p_score r)) r);
  q_max : forall now r, Q r -> Q (with_score (score_max c now) r);
  q_worse : forall a b, Q a -> Q b -> Q (with_score (p_score a) b);
  q_net : forall k p addrs r, Q r -> Q (update_net k p addrs r);
  q_conn : forall a inc r, addr_in S a -> Q r -> Q (register_conn a inc r);
  q_default : forall now, Q (peer_default c now);
  q_new : forall now k p, Q (peer_new c now k p);
  q_trusted : forall now k p, Q (peer_trusted c now k p);
  q_ips : forall r, Q r -> forall x, In x (p_ips r) -> S x }.

Section Closed.
Context (c : cfg) (S : ipaddr -> Prop) (Q : peer -> Prop) (H : closed c S Q).
Definition AllQ (P : list (ident * peer)) : Prop := Forall (fun e => Q (snd e)) P.
Definition IPok (m : list (ipaddr * nat)) : Prop := forall x, 0 < ip_count x m -> S x.
Definition Gd (s : store) : Prop := AllQ (peers s) /\ IPok (b_ips s).

Lemma all_get id r P : AllQ P -> get ident_eqb id P = Some r -> Q r.
Proof.
  induction P as [|[j x] P IH]; cbn; [congruence|]. intros HA Hg. inversion HA; subst.
  destruct (ident_eqb id j); [inversion Hg; subst; auto|auto].
Qed.
Lemma all_del id P : AllQ P -> AllQ (del ident_eqb id P).
Proof.
  intros HA. unfold AllQ, del in *. rewrite Forall_forall in *. intros e He. apply filter_In in He as [He _]. auto.
Qed.
Lemma all_put id r P : Q r -> AllQ P -> AllQ (put ident_eqb id r P).
Proof. intros Hr HA. constructor; auto. apply all_del; auto. Qed.
Lemma gd_rec s id r : Gd s -> rec_of id s = Some r -> Q r.
Proof. intros [HA _] Hr. eapply all_get; eauto. Qed.
Lemma gd_put s id r : Gd s -> Q r -> Gd (put_rec id r s).
Proof. intros [HA HI] Hr. split; cbn; auto. apply all_put; auto. Qed.
Lemma gd_del s id : Gd s -> Gd (del_rec id s).
Proof. intros [HA HI]. split; cbn; auto. apply all_del; auto. Qed.
Lemma gd_idx s I : Gd s -> Gd (set_idx I s).
Proof. intros HG; exact HG. Qed.
Lemma gd_disc s d : Gd s -> Gd (set_disc d s).
Proof. intros HG; exact HG. Qed.
Lemma ip_dec m y : IPok m -> IPok (dec_ip m y).
Proof. intros HI x Hx. apply HI. rewrite dec_ip_count in Hx. lia. Qed.
Lemma ip_decs ips : forall m, IPok m -> IPok (fold_left dec_ip ips m).
Proof. induction ips as [|y ips IH]; intros m HI; cbn; auto. apply IH, ip_dec; auto. Qed.
Lemma ip_incs ips : (forall x, In x ips -> S x) -> forall m, IPok m -> IPok (fold_left inc_ip ips m).
Proof.
  induction ips as [|y ips IH]; intros HS m HI; cbn; auto. apply IH; [intros x Hx; apply HS; right; auto|].
  intros x Hx. rewrite inc_ip_count in Hx. destruct (N.eqb x y) eqn:E.
  - apply N.eqb_eq in E; subst. apply HS; left; auto.
  - apply HI; lia.
Qed.
Lemma gd_rb s ips : Gd s -> Gd (remove_banned ips s).
Proof. intros [HA HI]. split; cbn; auto. apply ip_decs; auto. Qed.
Lemma gd_ab s r : Gd s -> Q r -> Gd (add_banned r s).
Proof. intros [HA HI] Hr. split; cbn; auto. apply ip_incs; auto. apply (q_ips _ _ _ H); auto. Qed.
Lemma gd_rvi s ips : Gd s -> Gd (remove_validator_ip ips s).
Proof.
  intros [HA HI]. split; cbn; auto. intros x Hx. rewrite del_ips_count in Hx. destruct (memN x ips); [lia|auto].
Qed.
Lemma gd_release s r : Gd s -> Gd (release r s).
Proof. intros HG. unfold release. destruct (p_status r); auto. apply gd_rb; auto. Qed.
Lemma gd_evict s id : Gd s -> Gd (fst (evict id s)) /\ (forall r, snd (evict id s) = Some r -> Q r).
Proof.
  intros HG. unfold evict. destruct (rec_of id s) as [r|] eqn:E.
  - pose proof (gd_rec _ _ _ HG E) as Hq. pose proof (gd_del _ id HG) as HD.
    destruct id; destruct (p_net r); cbn [fst snd]; (split; [exact HD|intros x Hx; inversion Hx; subst; auto]).
  - cbn. split; auto. intros r Hr; discriminate Hr.
Qed.
Lemma gd_pen ex pen r : Q r -> Q (apply_penalty c pen ex r).
Proof. intros Hr. unfold apply_penalty. destruct ex; auto. apply (q_pen _ _ _ H); auto. Qed.
Lemma gd_eb ex r : Q r -> Q (ensure_banned c ex r).
Proof. intros Hr. unfold ensure_banned. destruct (rep c r); auto; apply gd_pen; auto. Qed.
Lemma gd_ensure s now p ns : Gd s -> Gd (fst (ensure_exists c now p ns s)).
Proof.
  intros HG. unfold ensure_exists. cbv zeta. cbn [fst].
  assert (HH : forall b : bool, let s1 := if b then set_idx (del N.eqb p (idx s)) s else s in
    let id := if b then Unident p else identity_for s p in
    let s2 := match rec_of id s1 with Some _ => s1 | None => put_rec id (peer_default c now) s1 end in
    Gd match ns, rec_of id s2 with
       | NBanned, Some r => put_rec id (ensure_banned c (trust_basis s2 (identity_for s2 p)) r) s2
       | _, _ => s2 end); [|apply HH].
  intros b s1 id s2.
  assert (H1 : Gd s1) by (unfold s1; destruct b; auto).
  assert (H2 : Gd s2) by (unfold s2; destruct (rec_of id s1); auto; apply gd_put; auto; apply (q_default _ _ _ H)).
  destruct ns; auto. destruct (rec_of id s2) as [r|] eqn:E; auto. apply gd_put; auto. apply gd_eb. eapply gd_rec; eauto.
Qed.
Lemma gd_set_status s p st : Gd s -> Gd (set_status p st s).
Proof.
  intros HG. unfold set_status. destruct (rec_of _ s) as [r|] eqn:E; auto. apply gd_put; auto.
  apply (q_status _ _ _ H). eapply gd_rec; eauto.
Qed.
Lemma gd_update s now p ns : Gd s -> (forall a inc, ns = NConnected a inc -> addr_in S a) ->
  Gd (fst (update_status c now p ns s)).
Proof.
  intros HG Hns. unfold update_status. pose proof (gd_ensure s now p ns HG) as H1.
  destruct (ensure_exists c now p ns s) as [s1 cs]. cbn [fst] in H1.
  destruct ns as [a inc|b| | | |]; cbn [fst].
  - unfold to_connected. destruct (rec_of _ s1) as [r|] eqn:E; auto. pose proof (gd_rec _ _ _ H1 E) as Hr.
    apply gd_put; [|apply (q_conn _ _ _ H); eauto]. destruct cs; auto. apply gd_rb; auto.
  - unfold to_disconnecting. pose proof (gd_set_status s1 p (Disconnecting b) H1) as H2. destruct cs; cbn [fst]; auto.
  - unfold to_dialing. destruct (rec_of _ s1) as [r|] eqn:E; auto. pose proof (gd_rec _ _ _ H1 E) as Hr.
    apply gd_put.
    + destruct cs; auto. apply gd_rb; auto.
    + unfold register_dialing. destruct (p_status r); auto; apply (q_status _ _ _ H); auto.
  - unfold to_disconnected, to_disconnected_banned.
    assert (HS : Gd (set_status p (Disconnected now) (set_disc (disc s1 + 1) s1))) by (apply gd_set_status; auto).
    destruct cs as [| [|]| | | |]; cbn [fst]; auto.
    destruct (rec_of _ s1) as [r|] eqn:E; auto. pose proof (gd_rec _ _ _ H1 E) as Hr.
    apply gd_ab; [apply gd_put; auto|]; apply (q_status _ _ _ H); auto.
  - unfold to_banned. destruct (rec_of _ s1) as [r|] eqn:E; auto. pose proof (gd_rec _ _ _ H1 E) as Hr.
    destruct cs; cbn [fst]; auto; try (apply gd_put; auto; apply (q_status _ _ _ H); auto).
    + assert (HA : Gd (set_disc (disc (add_banned r s1) - 1) (add_banned r s1))) by (apply gd_disc, gd_ab; auto).
      destruct (is_banned_st (p_status r)); auto. apply gd_put; auto. apply (q_status _ _ _ H); auto.
    + apply gd_put; [apply gd_ab; auto|apply (q_status _ _ _ H); auto].
  - unfold to_unbanned. destruct (rec_of _ s1) as [r|] eqn:E; auto. pose proof (gd_rec _ _ _ H1 E) as Hr.
    destruct cs as [| [|]| | | |]; cbn [fst]; auto.
    + apply gd_put; auto. apply (q_status _ _ _ H); auto.
    + apply gd_disc, gd_rb, gd_put; auto. apply (q_status _ _ _ H); auto.
Qed.
Lemma gd_penalty s now p pen : Gd s -> Gd (fst (process_penalty c now p pen s)).
Proof.
  intros HG. unfold process_penalty. destruct (rec_of _ s) as [r|] eqn:E; auto. pose proof (gd_rec _ _ _ HG E) as Hr.
  set (r' := apply_penalty c pen _ r). assert (H1 : Gd (put_rec (identity_for s p) r' s)) by (apply gd_put; auto; apply gd_pen; auto).
  destruct (rep_eqb _ _); auto. destruct (rep c r'); auto.
  - destruct (is_conn_or_dial _); apply gd_update; auto; intros a inc Hn; discriminate Hn.
  - apply gd_update; auto; intros a inc Hn; discriminate Hn.
Qed.
Lemma gd_trusted s now k p : Gd s -> Gd (add_trusted c now k p s).
Proof.
  intros HG. unfold add_trusted. apply gd_put; [|apply (q_trusted _ _ _ H)]. apply gd_idx.
  assert (HE : forall id t, Gd t -> Gd (let '(s', o) := evict id t in opt_release o s')).
  { intros id t Ht. destruct (gd_evict t id Ht) as [H1 _]. destruct (evict id t) as [t' [o|]]; cbn in *; auto. apply gd_release; auto. }
  apply HE. destruct (ident_eqb _ _); auto.
Qed.
Lemma gd_upsert s now k p addrs : Gd s -> Gd (upsert c now k p addrs s).
Proof.
  intros HG. unfold upsert.
  set (cur := identity_for s p).
  assert (HE : Gd (fst (if ident_eqb cur (Confirmed k) then (s, None) else evict (Confirmed k) s)) /\
     forall r, snd (if ident_eqb cur (Confirmed k) then (s, None) else evict (Confirmed k) s) = Some r -> Q r).
  { destruct (ident_eqb cur (Confirmed k)).
    - cbn. split; auto. intros r Hr; discriminate Hr.
    - apply gd_evict; auto. }
  destruct (if ident_eqb cur (Confirmed k) then (s, None) else evict (Confirmed k) s) as [s1 rot].
  destruct HE as [H1 Hrot]. cbn [fst snd] in *.
  pose proof (gd_del _ cur H1) as H2.
  assert (HN : forall r t, Gd t -> Q r -> Gd (snd (normalize now r t)) /\ Q (fst (normalize now r t))).
  { intros r t Ht Hr. unfold normalize. destruct (p_status r) as [| [|]| | | |]; cbn [fst snd]; split; auto;
      try (apply (q_status _ _ _ H); auto). apply gd_ab; auto. apply (q_status _ _ _ H); auto. }
  destruct (rec_of cur s1) as [m|] eqn:Em.
  - pose proof (gd_rec _ _ _ H1 Em) as Hm. destruct rot as [d|].
    + apply gd_put; [apply gd_idx, gd_release; auto|]. apply (q_net _ _ _ H). unfold retain_worse.
      destruct (_ <? _)%Z; auto. apply (q_worse _ _ _ H); auto.
    + apply gd_put; [apply gd_idx; auto|]. apply (q_net _ _ _ H); auto.
  - destruct rot as [d|].
    + destruct (HN (update_net k p addrs d) (del_rec cur s1) H2) as [A B]; [apply (q_net _ _ _ H); auto|].
      destruct (normalize now (update_net k p addrs d) (del_rec cur s1)) as [r s3]. apply gd_put; auto.
    + destruct (HN (update_net k p addrs (peer_new c now k p)) (del_rec cur s1) H2) as [A B];
        [apply (q_net _ _ _ H), (q_new _ _ _ H)|].
      destruct (normalize now (update_net k p addrs (peer_new c now k p)) (del_rec cur s1)) as [r s3]. apply gd_put; auto.
Qed.
Lemma gd_beat s now : Gd s -> Gd (beat c now s).
Proof.
  intros [HA HI]. split; [|exact HI]. cbn. unfold AllQ in *. rewrite Forall_forall in *. intros e He.
  apply in_map_iff in He as [x [<- Hx]]. cbn. unfold peer_heartbeat. destruct (exempt s (fst x) (snd x)); cbn; auto.
  apply (q_upd _ _ _ H); auto.
Qed.
Lemma gd_status_all ns now l : (forall a inc, ns <> NConnected a inc) -> forall s, Gd s -> Gd (status_all c now ns l s).
Proof.
  intros Hn. induction l as [|p l IH]; intros s HG; cbn; auto. apply IH, gd_update; auto.
  intros a inc E. exfalso. eapply Hn; eauto.
Qed.
Lemma gd_prune s : Gd s -> Gd (prune_banned c (prune_disconnected c s)).
Proof.
  assert (HF : forall A (f : store -> A -> store) l, (forall t e, Gd t -> Gd (f t e)) -> forall t, Gd t -> Gd (fold_left f l t)).
  { intros A f l Hf. induction l as [|e l IH]; intros t Ht; cbn; auto. }
  intros HG. unfold prune_banned. apply HF.
  - intros t e Ht. apply gd_rb, gd_evict; auto.
  - unfold prune_disconnected. apply HF; auto. intros t e Ht. cbv zeta. apply gd_disc, gd_evict; auto.
Qed.
Lemma gd_forgive s now k : Gd s -> Gd (forgive c now s k).
Proof.
  intros HG. unfold forgive. destruct (rec_of (Confirmed k) s) as [r0|]; auto. destruct (p_net r0) as [p|]; auto.
  pose proof (gd_ensure s now p NUnbanned HG) as H1. destruct (ensure_exists c now p NUnbanned s) as [s1 st]. cbn [fst] in H1.
  set (s2 := match st with Disconnecting true | Banned _ => _ | _ => s1 end).
  assert (H2 : Gd s2).
  { assert (HU : Gd (fst (update_status c now p NUnbanned s1))) by (apply gd_update; auto; intros a inc Hn; discriminate Hn).
    unfold s2. destruct st as [| [|]| | | |]; auto. }
  destruct (rec_of (Confirmed k) s2) as [r|] eqn:E; auto. apply gd_rvi, gd_put; auto. apply (q_max _ _ _ H). eapply gd_rec; eauto.
Qed.
Lemma gd_forgives now l : forall s, Gd s -> Gd (fold_left (forgive c now) l s).
Proof. induction l as [|k l IH]; intros s HG; cbn; auto. apply IH, gd_forgive; auto. Qed.
Lemma gd_step s e : Gd s -> (forall now p a inc, e = EConnect now p a inc -> addr_in S a) -> Gd (step c s e).
Proof.
  intros HG He.
  destruct e as [now p a inc|now p|now p|now p|now p pen|now k p|now k p addrs|now k|now a b d|now l|now|i]; cbn [step].
  - destruct (peer_banned c s p); auto. apply gd_update; auto. intros a' inc' E. inversion E; subst. eapply He; eauto.
  - apply gd_update; auto. intros a inc E; discriminate E.
  - apply gd_update; auto. intros a inc E; discriminate E.
  - unfold register_disconnected. pose proof (gd_update s now p NDisconnected HG ltac:(intros a inc E; discriminate E)) as H1.
    destruct (update_status c now p NDisconnected s) as [s1 a]. cbn [fst] in *. apply gd_prune; auto.
  - apply gd_penalty; auto.
  - apply gd_trusted; auto.
  - apply gd_upsert; auto.
  - unfold membership. destruct (in_slots s k); auto. apply gd_forgive; auto.
  - unfold update_committees. apply gd_forgives. exact HG.
  - unfold mark_for_dial. apply gd_forgives. exact HG.
  - unfold heartbeat. apply gd_status_all; [intros a inc E; discriminate E|]. apply gd_beat.
    apply gd_status_all; auto. intros a inc E; discriminate E.
  - destruct HG as [HA HI]. split; auto. cbn. unfold AllQ in *. eapply Permutation_Forall; [apply move_front_perm|auto].
Qed.
Lemma gd_run l : forall s, Gd s -> (forall now p a inc, In (EConnect now p a inc) l -> addr_in S a) -> Gd (run c l s).
Proof.
  induction l as [|e l IH]; intros s HG He; cbn; auto. apply IH.
  - apply gd_step; auto. intros now p a inc ->. eapply He. left; reflexivity.
  - intros now p a inc Hin. eapply He. right; eauto.
Qed.
Lemma gd_empty : Gd empty_store.
Proof. split; [constructor|]. intros x Hx. cbn in Hx. lia. Qed.
End Closed.

Lemma un_score k p addrs r : p_score (update_net k p addrs r) = p_score r.
Proof. apply un_net. Qed.

(* seen addresses *)
Lemma closed_seen c (S : ipaddr -> Prop) : closed c S (fun r => forall x, In x (p_ips r) -> S x).
Proof.
  constructor; cbn; auto.
  - intros k p addrs r Hr x Hx. destruct (un_net k p addrs r) as [_ [_ [_ [E _]]]]. rewrite E in Hx. auto.
  - intros a inc r Ha Hr x Hx. unfold observe in Hx. unfold addr_in in Ha. destruct (a_ip a) as [y|]; auto.
    destruct (memN y (p_ips r)); auto. destruct Hx as [<-|Hx]; auto.
  - intros now x [].
  - intros now k p x [].
  - intros now k p x [].
Qed.

(* what the score configuration must satisfy *)
Record cfg_ok (c : cfg) : Prop := mkCfgOk {
  k_unit : (0 < c_unit c)%Z;
  k_min : (c_min c <= c_ban c)%Z;
  k_ban : (c_ban c < c_disc c)%Z;
  k_disc : (c_disc c < 0)%Z;
  k_def : (c_disc c < c_default c <= c_max c)%Z;
  k_max : (0 <= c_max c)%Z;
  k_decay_neg : forall d v, (v <= 0 -> v <= c_decay c d v <= 0)%Z;
  k_decay_pos : forall d v, (0 <= v -> 0 <= c_decay c d v <= v)%Z }.
Definition in_range (c : cfg) (r : peer) : Prop :=
  s_val (p_score r) = s_agg (p_score r) /\ (c_min c <= s_agg (p_score r) <= c_max c)%Z.
Lemma us_val c s : s_val (update_score c s) = s_val s /\ s_agg (update_score c s) = s_val s.
Proof. unfold update_score. destruct (negb _ && _); auto. Qed.
Lemma pen_val c pen s : let s' := score_penalty c pen s in
  s_val s' = s_agg s' /\ s_agg s' = match pen with
    | Mild => clamp c (s_val s - c_unit c) | Medium => clamp c (s_val s - 5 * c_unit c)
    | Severe => clamp c (s_val s - 10 * c_unit c) | Fatal => c_min c end.
Proof. cbv zeta. unfold score_penalty. destruct (us_val c (mkScore match pen with
    | Mild => clamp c (s_val s - c_unit c) | Medium => clamp c (s_val s - 5 * c_unit c)
    | Severe => clamp c (s_val s - 10 * c_unit c) | Fatal => c_min c end (s_agg s) (s_upd s))) as [A B]. cbn in *. rewrite A, B. auto. Qed.
Lemma closed_range c : cfg_ok c -> closed c (fun _ => True) (in_range c).
Proof.
  intros K. pose proof (k_min _ K). pose proof (k_ban _ K). pose proof (k_disc _ K). pose proof (k_def _ K). pose proof (k_max _ K).
  constructor; unfold in_range; cbn [p_score with_status with_score register_conn peer_default peer_new peer_trusted]; auto.
  - intros pen r Hr. destruct (pen_val c pen (p_score r)) as [A B]. split; auto. rewrite B. unfold clamp. destruct pen; lia.
  - intros now r [Hv Hr]. unfold score_update. destruct (s_upd (p_score r) <=? now)%N; auto.
    destruct (us_val c (mkScore (c_decay c (now - s_upd (p_score r)) (s_val (p_score r))) (s_agg (p_score r)) now)) as [A B].
    rewrite A, B. cbn. split; auto. rewrite Hv.
    pose proof (k_decay_neg _ K (now - s_upd (p_score r))%N (s_agg (p_score r))).
    pose proof (k_decay_pos _ K (now - s_upd (p_score r))%N (s_agg (p_score r))). lia.
  - intros now r _. cbn. split; auto. lia.
  - intros k p addrs r Hr. rewrite un_score; auto.
  - intros now; cbn. split; auto. lia.
  - intros now k p; cbn. split; auto. lia.
  - intros now k p; cbn. split; auto. lia.
Qed.
