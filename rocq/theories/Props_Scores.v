(* C50: peer scores: who can be penalised, what a penalty does, how long a ban lasts, and what
   claiming another network key can change. *)
From Verif Require Import Util AMap PeersModel PeersSpec PeersProofs PeersProofs2 PeersProofs3 PeersProofs4 PeersProofs5 PeersProofs6 Props_Peers.
Local Open Scope Z_scope.
Local Notation ieq := ident_eqb_eq.

Definition agg (r : peer) : Z := s_agg (p_score r).
(* what one penalty costs, types.rs 110-130 *)
Definition after_penalty (c : cfg) (pen : penalty) (v : Z) : Z :=
  match pen with
  | Mild => Z.max (c_min c) (v - c_unit c)
  | Medium => Z.max (c_min c) (v - 5 * c_unit c)
  | Severe => Z.max (c_min c) (v - 10 * c_unit c)
  | Fatal => c_min c
  end.

Lemma reach_range c l id r : cfg_ok c -> rec_of id (run c l empty_store) = Some r -> in_range c r.
Proof.
  intros K Hr. pose proof (gd_run c (fun _ => True) _ (closed_range c K) l empty_store (gd_empty _ _)) as HG.
  assert (Ha : forall now p a inc, In (EConnect now p a inc) l -> addr_in (fun _ => True) a)
    by (intros now p a inc _; unfold addr_in; destruct (a_ip a); auto).
  eapply gd_rec; [apply (HG Ha)|exact Hr].
Qed.
(* Every score stays within its limits. *)
Theorem C50_score_range : forall c l id r, cfg_ok c ->
  rec_of id (run c l empty_store) = Some r -> c_min c <= agg r <= c_max c.
Proof. intros c l id r K Hr. apply (reach_range c l id r K Hr). Qed.

Lemma pen_rec st ex c now p pen s id r : Inv st ex s -> rec_of id s = Some r ->
  exists r', rec_of id (fst (process_penalty c now p pen s)) = Some r' /\
    p_score r' = p_score (if ident_eqb id (identity_for s p) then apply_penalty c pen (exempt s id r) r else r) /\
    p_oper r' = p_oper r /\ p_net r' = p_net r /\ p_bls r' = p_bls r.
Proof.
  intros HI Hr. unfold process_penalty.
  destruct (rec_of (identity_for s p) s) as [t|] eqn:Ht.
  2:{ exists r. split; auto. assert (E : ident_eqb id (identity_for s p) = false).
      { destruct (ident_eqb id (identity_for s p)) eqn:E; auto. apply ieq in E; subst. congruence. }
      rewrite E. auto. }
  destruct (penalty_keys c pen (trust_basis s (identity_for s p)) t) as [A [B [D [E [F _]]]]].
  assert (Et : trust_basis s (identity_for s p) = exempt s (identity_for s p) t) by (unfold trust_basis; rewrite Ht; auto).
  set (t' := apply_penalty c pen (trust_basis s (identity_for s p)) t) in *.
  set (s1 := put_rec (identity_for s p) t' s).
  assert (HI1 : Inv st ex s1) by (eapply Inv_same; eauto).
  assert (H1 : exists r1, rec_of id s1 = Some r1 /\
     p_score r1 = p_score (if ident_eqb id (identity_for s p) then apply_penalty c pen (exempt s id r) r else r) /\
     p_oper r1 = p_oper r /\ p_net r1 = p_net r /\ p_bls r1 = p_bls r).
  { destruct (ident_eqb id (identity_for s p)) eqn:Ei.
    - apply ieq in Ei. rewrite Ei in *. assert (t = r) by congruence. subst t.
      exists t'. split; [apply rec_put_same|]. unfold t'. rewrite <- Et. auto.
    - exists r. split; auto. unfold s1. rewrite rec_put_other; auto. intros Q. rewrite Q in Ei.
      rewrite (eqb_rf ident_eqb ieq) in Ei. discriminate Ei. }
  destruct H1 as [r1 [Hr1 [S1 [S2 [S3 S4]]]]].
  assert (HK : forall ns, (ns = NBanned -> rep c t' = RBanned) ->
     exists r', rec_of id (fst (update_status c now p ns s1)) = Some r' /\
      p_score r' = p_score (if ident_eqb id (identity_for s p) then apply_penalty c pen (exempt s id r) r else r) /\
      p_oper r' = p_oper r /\ p_net r' = p_net r /\ p_bls r' = p_bls r).
  { intros ns Hns. destruct (us_keep_all st ex c now p ns s1 id r1 HI1 Hr1) as [r' [Hr' [T1 [T2 [T3 T4]]]]].
    - intros En x Hx. unfold get_peer in Hx. change (identity_for s1 p) with (identity_for s p) in Hx.
      unfold s1 in Hx. rewrite rec_put_same in Hx. inversion Hx; subst. auto.
    - exists r'. split; auto. repeat split; congruence. }
  destruct (rep_eqb _ _); [exists r1; auto|].
  destruct (rep c t') eqn:Er; [exists r1; auto| |].
  - destruct (is_conn_or_dial _); apply HK; congruence.
  - apply HK; congruence.
Qed.

(* Committee members and allowlisted peers: no penalty changes anything, nor causes any action. *)
Theorem C50_exempt_untouched : forall c l now p pen r,
  let s := run c l empty_store in
  get_peer s p = Some r -> exempt s (identity_for s p) r = true ->
  let '(s', a) := process_penalty c now p pen s in
  a = ANone /\ (forall id, rec_of id s' = rec_of id s) /\ idx s' = idx s /\
  b_total s' = b_total s /\ b_ips s' = b_ips s /\ disc s' = disc s.
Proof.
  intros c l now p pen r s Hg He. unfold process_penalty. unfold get_peer in Hg. rewrite Hg.
  assert (Et : trust_basis s (identity_for s p) = true) by (unfold trust_basis; rewrite Hg; auto).
  rewrite Et. cbn [apply_penalty]. assert (Er : rep_eqb (rep c r) (rep c r) = true) by (destruct (rep c r); auto).
  rewrite Er. split; auto. split; [|auto].
  intros id. destruct (eqb_dec ident_eqb ieq id (identity_for s p)) as [->|Hne].
  - rewrite rec_put_same. auto.
  - rewrite rec_put_other; auto.
Qed.
(* nor does the heartbeat change their score *)
Theorem C50_exempt_heartbeat : forall c l now id r,
  let s := run c l empty_store in
  rec_of id s = Some r -> exempt s id r = true ->
  exists r', rec_of id (step c s (EHeartbeat now)) = Some r' /\ p_score r' = p_score r.
Proof.
  intros c l now id r s Hr He. destruct (hb_rec false false c now s id r (reach_inv c l) Hr) as [r' [H1 [H2 _]]].
  exists r'. split; auto. rewrite H2, He. reflexivity.
Qed.
(* Anybody else: a penalty costs exactly what it says, and nobody else's score moves. *)
Theorem C50_penalty_exact : forall c l now p pen r, cfg_ok c ->
  let s := run c l empty_store in
  get_peer s p = Some r -> exempt s (identity_for s p) r = false ->
  let s' := step c s (EPenalty now p pen) in
  (exists r', get_peer s' p = Some r' /\ agg r' = after_penalty c pen (agg r) /\ agg r' <= agg r) /\
  (forall id x, id <> identity_for s p -> rec_of id s = Some x -> exists x', rec_of id s' = Some x' /\ p_score x' = p_score x).
Proof.
  intros c l now p pen r K s Hg He s'. pose proof (reach_inv c l) as HI. fold s in HI.
  assert (Ex : idx s' = idx s).
  { unfold s'. cbn [step]. unfold process_penalty. unfold get_peer in Hg. rewrite Hg.
    destruct (penalty_keys c pen (trust_basis s (identity_for s p)) r) as [A [B [D [E _]]]].
    set (t' := apply_penalty c pen _ r) in *.
    assert (HI1 : Inv false false (put_rec (identity_for s p) t' s)) by (eapply Inv_same; eauto).
    assert (HU : forall ns, idx (fst (update_status c now p ns (put_rec (identity_for s p) t' s))) = idx s).
    { intros ns. destruct (us_frame false false c now p ns _ HI1) as [U _]. exact U. }
    destruct (rep_eqb _ _); auto. destruct (rep c t'); auto. destruct (is_conn_or_dial _); auto. }
  assert (Ei : identity_for s' p = identity_for s p) by (apply ident_for_idx; auto).
  destruct (reach_range c l _ _ K Hg) as [Hv Hrg].
  split.
  - destruct (pen_rec false false c now p pen s _ r HI Hg) as [r' [H1 [H2 _]]].
    rewrite (eqb_rf ident_eqb ieq), He in H2. cbn [apply_penalty with_score p_score] in H2.
    exists r'. unfold get_peer. rewrite Ei. split; [exact H1|].
    unfold agg. rewrite H2. destruct (pen_val c pen (p_score r)) as [_ Ev]. rewrite Ev, Hv.
    pose proof (k_unit _ K). unfold after_penalty, clamp. destruct pen; lia.
  - intros id x Hne Hx. destruct (pen_rec false false c now p pen s id x HI Hx) as [x' [H1 [H2 _]]].
    exists x'. split; auto. destruct (ident_eqb id (identity_for s p)) eqn:E; auto. apply ieq in E. contradiction.
Qed.
(* A fatal penalty bans. *)
Theorem C50_fatal_bans : forall c l now p r, cfg_ok c ->
  let s := run c l empty_store in
  get_peer s p = Some r -> exempt s (identity_for s p) r = false ->
  peer_banned c (step c s (EPenalty now p Fatal)) p = true.
Proof.
  intros c l now p r K s Hg He.
  destruct (proj1 (C50_penalty_exact c l now p Fatal r K Hg He)) as [r' [H1 [H2 _]]].
  unfold peer_banned. fold s in H1. rewrite H1. cbn [after_penalty] in H2.
  assert (E : rep c r' = RBanned) by (apply rep_banned; fold (agg r'); pose proof (k_min _ K); lia).
  rewrite E. reflexivity.
Qed.

(* The heartbeat never bans, and never lowers a score below zero. *)
Theorem C50_heartbeat_never_bans : forall c l now id r, cfg_ok c ->
  let s := run c l empty_store in
  rec_of id s = Some r ->
  exists r', rec_of id (step c s (EHeartbeat now)) = Some r' /\
    (rep c r' = RBanned -> rep c r = RBanned) /\ Z.min 0 (agg r) <= agg r' <= Z.max 0 (agg r).
Proof.
  intros c l now id r K s Hr. destruct (hb_rec false false c now s id r (reach_inv c l) Hr) as [r' [H1 [H2 _]]].
  exists r'. split; auto. destruct (reach_range c l _ _ K Hr) as [Hv Hrg].
  pose proof (k_ban _ K). pose proof (k_disc _ K).
  assert (Hb : Z.min 0 (agg r) <= agg r' <= Z.max 0 (agg r)).
  { unfold agg. rewrite H2. unfold peer_heartbeat. destruct (exempt s id r); cbn [fst]; [lia|]. cbn [p_score with_score].
    unfold score_update. destruct (s_upd (p_score r) <=? now)%N; [|lia].
    destruct (us_val c (mkScore (c_decay c (now - s_upd (p_score r)) (s_val (p_score r))) (s_agg (p_score r)) now)) as [_ E].
    rewrite E. cbn. rewrite Hv.
    pose proof (k_decay_neg _ K (now - s_upd (p_score r))%N (s_agg (p_score r))).
    pose proof (k_decay_pos _ K (now - s_upd (p_score r))%N (s_agg (p_score r))). lia. }
  split; auto. rewrite !rep_banned. fold (agg r) (agg r'). lia.
Qed.

(* ---- how long a ban lasts ---- *)
Definition lifts (e : ev) : bool :=
  match e with ETrusted _ _ _ | EUpsert _ _ _ _ => true | _ => forgives e end.
Definition beats_before (L : N) (e : ev) : Prop := match e with EHeartbeat now => (now < L)%N | _ => True end.
(* A banned record stays banned, and keeps the instant L until which it is locked, through any call
   other than a forgiveness, an allowlisting or a change of key, until a heartbeat at or after L; the
   only other way out is to be dropped from the store when a connection closes. *)
Lemma ban_step c l id r e : cfg_ok c ->
  let s := run c l empty_store in
  rec_of id s = Some r -> rep c r = RBanned -> lifts e = false -> beats_before (s_upd (p_score r)) e ->
  match rec_of id (step c s e) with
  | Some r' => rep c r' = RBanned /\ s_upd (p_score r') = s_upd (p_score r)
  | None => match e with EClosed _ _ => True | _ => False end
  end.
Proof.
  intros K s Hr Hb Hl Ht. pose proof (reach_inv c l) as HI. fold s in HI.
  assert (HU : forall now p ns, ns <> NBanned -> exists r', rec_of id (fst (update_status c now p ns s)) = Some r' /\ p_score r' = p_score r).
  { intros now p ns Hn. destruct (us_keep_all false false c now p ns s id r HI Hr) as [r' [H1 [H2 _]]]; [contradiction|]. eauto. }
  assert (HS : forall r', p_score r' = p_score r -> rep c r' = RBanned /\ s_upd (p_score r') = s_upd (p_score r)).
  { intros r' E. unfold rep in *. rewrite E. auto. }
  destruct e as [now p a inc|now p|now p|now p|now p pen|now k p|now k p addrs|now k|now a b d|now m|now|i];
    cbn [lifts forgives] in Hl; try discriminate Hl; cbn [step].
  - destruct (peer_banned c s p); [rewrite Hr; auto|].
    destruct (HU now p (NConnected a inc) ltac:(congruence)) as [r' [H1 H2]]. rewrite H1. auto.
  - destruct (HU now p NDialing ltac:(congruence)) as [r' [H1 H2]]. rewrite H1. auto.
  - destruct (HU now p (NDisconnecting false) ltac:(congruence)) as [r' [H1 H2]]. rewrite H1. auto.
  - pose proof (C49_capacity c l now p) as [_ [_ [_ [Hk _]]]]. fold s in Hk. cbn [step] in Hk.
    destruct (rec_of id (fst (register_disconnected c now p s))) as [r'|] eqn:E; auto.
    apply Hk in E. destruct (HU now p NDisconnected ltac:(congruence)) as [r2 [H1 H2]].
    assert (r2 = r') by congruence. subst. auto.
  - destruct (pen_rec false false c now p pen s id r HI Hr) as [r' [H1 [H2 _]]]. rewrite H1.
    destruct (ident_eqb id (identity_for s p)); auto. unfold apply_penalty in H2. destruct (exempt s id r); auto.
    cbn [p_score with_score] in H2. destruct (reach_range c l _ _ K Hr) as [Hv Hrg]. apply rep_banned in Hb.
    split.
    + apply rep_banned. rewrite H2. destruct (pen_val c pen (p_score r)) as [_ Ev]. rewrite Ev, Hv.
      pose proof (k_unit _ K). pose proof (k_min _ K). unfold clamp. destruct pen; lia.
    + rewrite H2. apply s_upd_lock. unfold s_banned. apply Z.leb_le; auto.
  - destruct (hb_rec false false c now s id r HI Hr) as [r' [H1 [H2 _]]]. rewrite H1. apply HS. rewrite H2.
    unfold peer_heartbeat. destruct (exempt s id r); auto. cbn. unfold score_update. cbn in Ht.
    destruct (s_upd (p_score r) <=? now)%N eqn:E; auto. apply N.leb_le in E. lia.
  - assert (E : rec_of id (set_peers (move_front i (peers s)) s) = rec_of id s).
    { symmetry. apply (get_perm ident_eqb ieq); [apply (proj1 HI)|apply move_front_perm]. }
    rewrite E, Hr. auto.
Qed.
Lemma run_app c l1 l2 s : run c (l1 ++ l2) s = run c l2 (run c l1 s).
Proof. apply fold_left_app. Qed.
Theorem C50_ban_lasts : forall c l l' id r, cfg_ok c ->
  let s := run c l empty_store in
  rec_of id s = Some r -> rep c r = RBanned ->
  (forall e, In e l' -> lifts e = false /\ beats_before (s_upd (p_score r)) e) ->
  (exists l1 now p l2, l' = l1 ++ EClosed now p :: l2 /\ rec_of id (run c (l1 ++ [EClosed now p]) s) = None) \/
  (exists r', rec_of id (run c l' s) = Some r' /\ rep c r' = RBanned).
Proof.
  intros c l l' id r K. revert l r. induction l' as [|e l' IH]; intros l r s Hr Hb Hl.
  - right. exists r. auto.
  - destruct (Hl e (or_introl eq_refl)) as [He1 He2].
    pose proof (ban_step c l id r e K Hr Hb He1 He2) as HS. fold s in HS.
    assert (Es : step c s e = run c (l ++ [e]) empty_store) by (rewrite run_app; reflexivity).
    destruct (rec_of id (step c s e)) as [r1|] eqn:E1.
    + destruct HS as [Hb1 Hu1]. rewrite Es in E1.
      destruct (IH (l ++ [e]) r1 E1 Hb1) as [[l1 [now [p [l2 [-> H]]]]]|[r' [H H']]].
      * intros x Hx. rewrite Hu1. apply Hl. right; auto.
      * left. exists (e :: l1), now, p, l2. split; auto. cbn [app]. cbn [run fold_left]. rewrite <- Es in H. exact H.
      * right. exists r'. split; auto. rewrite <- Es in H. exact H.
    + destruct e; try contradiction. left. exists [], now, p, l'. split; auto.
Qed.
(* The instant L: a penalty that bans locks the record for the configured time counted from the last
   time its score was updated; a heartbeat that finds the peer not exempt and not locked updates it. *)
Theorem C50_lock_set : forall c l now p pen r r', cfg_ok c ->
  let s := run c l empty_store in
  get_peer s p = Some r -> rep c r <> RBanned ->
  rec_of (identity_for s p) (step c s (EPenalty now p pen)) = Some r' -> rep c r' = RBanned ->
  s_upd (p_score r') = (s_upd (p_score r) + c_lock c)%N.
Proof.
  intros c l now p pen r r' K s Hg Hn H1 Hb.
  destruct (pen_rec false false c now p pen s _ r (reach_inv c l) Hg) as [r2 [H2 [H3 _]]].
  cbn [step] in H1. assert (r2 = r') by congruence. subst r2. rewrite (eqb_rf ident_eqb ieq) in H3.
  unfold apply_penalty in H3. destruct (exempt s (identity_for s p) r).
  - exfalso. apply Hn. unfold rep in *. rewrite H3 in Hb. auto.
  - cbn [p_score with_score] in H3. rewrite H3 in *.
    assert (Hb' : s_banned c (score_penalty c pen (p_score r)) = true).
    { apply rep_banned in Hb. rewrite H3 in Hb. apply Z.leb_le in Hb. exact Hb. }
    assert (Hn' : s_banned c (p_score r) = false).
    { destruct (s_banned c (p_score r)) eqn:E; auto. exfalso. apply Hn. apply rep_banned. apply Z.leb_le in E. auto. }
    revert Hb'. unfold score_penalty, update_score. unfold s_banned in *. cbn [s_agg s_val s_upd]. rewrite Hn'.
    cbn [negb andb]. match goal with |- context [if ?b then _ else _] => destruct b eqn:E end; cbn [s_agg s_upd]; auto.
    intros Q. congruence.
Qed.
Theorem C50_heartbeat_updates : forall c l now id r,
  let s := run c l empty_store in
  rec_of id s = Some r -> exempt s id r = false -> (s_upd (p_score r) <= now)%N -> cfg_ok c ->
  exists r', rec_of id (step c s (EHeartbeat now)) = Some r' /\ s_upd (p_score r') = now.
Proof.
  intros c l now id r s Hr He Hu K.
  destruct (C50_heartbeat_never_bans c l now id r K Hr) as [r' [H1 [H2 _]]]. fold s in H1.
  destruct (hb_rec false false c now s id r (reach_inv c l) Hr) as [r2 [H3 [H4 _]]]. cbn [step] in H1.
  assert (r2 = r') by congruence. subst r2. exists r'. split; auto.
  destruct (reach_range c l _ _ K Hr) as [Hv _].
  assert (Hnb : s_banned c (p_score r') = true -> s_banned c (p_score r) = true).
  { intros Q. apply Z.leb_le in Q. apply Z.leb_le. apply rep_banned, H2, rep_banned. auto. }
  rewrite H4 in *. unfold peer_heartbeat in *. rewrite He in *. cbn [fst p_score with_score] in *.
  unfold score_update in *. apply N.leb_le in Hu. rewrite Hu in *.
  unfold update_score in *. cbn [s_val s_agg s_upd] in *.
  destruct (negb _ && _) eqn:E; auto. exfalso. apply andb_true_iff in E as [E1 E2]. apply negb_true_iff in E1.
  unfold s_banned in *. cbn [s_agg] in *. rewrite Hnb in E1 by auto. discriminate E1.
Qed.

(* ---- keys ---- *)
(* Learning that identity k now uses network key p never improves the score k had, nor the score the
   peer behind p had; every other identity than the one p had before keeps its record. *)
Theorem C50_new_key_no_gain : forall c l now k p addrs,
  let s := run c l empty_store in
  let s' := step c s (EUpsert now k p addrs) in
  identity_for s' p = Confirmed k /\
  (exists r', rec_of (Confirmed k) s' = Some r' /\
     (forall r, get_peer s p = Some r -> agg r' <= agg r) /\
     (forall r, rec_of (Confirmed k) s = Some r -> agg r' <= agg r)) /\
  (forall id : ident, id <> Confirmed k -> id <> identity_for s p -> rec_of id s' = rec_of id s).
Proof.
  intros c l now k p addrs s s'. pose proof (reach_inv c l) as HI. fold s in HI.
  assert (HN : forall r t, p_score (fst (normalize now r t)) = p_score r /\ peers (snd (normalize now r t)) = peers t).
  { intros r t. unfold normalize. destruct (p_status r) as [| [|]| | | |]; auto. }
  assert (Hput : forall id r t, identity_for (put_rec id r (set_idx (put N.eqb p k (idx t)) t)) p = Confirmed k).
  { intros id r t. unfold identity_for, idx_of. cbn [put_rec set_idx set_peers idx]. rewrite (get_put_same N.eqb N.eqb_eq). auto. }
  assert (Hoth : forall r t id, id <> Confirmed k -> rec_of id (put_rec (Confirmed k) r (set_idx (put N.eqb p k (idx t)) t)) = rec_of id t).
  { intros r t id Hne. rewrite rec_put_other by congruence. reflexivity. }
  assert (Hrel : forall d t id, rec_of id (release d t) = rec_of id t).
  { intros d t id. unfold rec_of. rewrite release_peers. auto. }
  unfold s'. cbn [step]. unfold upsert, get_peer. set (cur := identity_for s p).
  destruct (ident_eqb cur (Confirmed k)) eqn:Ec.
  - apply ieq in Ec. destruct (ident_conf _ _ _ _ _ HI Ec) as [m [Hm Hmp]]. rewrite Ec, Hm.
    split; [apply Hput|]. split.
    + exists (update_net k p addrs m). split; [apply rec_put_same|]. unfold agg. rewrite un_score.
      split; intros r Hr; assert (r = m) by congruence; subst; lia.
    + intros id H1 H2. rewrite Hoth by auto. apply rec_del_other; auto.
  - assert (Hne : cur <> Confirmed k) by (intros H; apply ieq in H; congruence).
    destruct (rec_of (Confirmed k) s) as [d|] eqn:Hd.
    + rewrite (evict_eq _ _ _ Hd).
      set (s1 := mkStore (del ident_eqb (Confirmed k) (peers s)) (evict_idx (Confirmed k) d (idx s)) (previous s)
                   (current s) (next s) (b_total s) (b_ips s) (disc s)).
      assert (Hs1 : forall id, id <> Confirmed k -> rec_of id s1 = rec_of id s).
      { intros id H. unfold rec_of, s1. cbn [peers]. apply get_del_other; [apply ieq|auto]. }
      rewrite (Hs1 cur Hne). destruct (rec_of cur s) as [m|] eqn:Hm.
      * split; [apply Hput|]. split.
        -- eexists. split; [apply rec_put_same|]. unfold agg. rewrite un_score. unfold retain_worse.
           destruct (s_agg (p_score d) <? s_agg (p_score m)) eqn:E; [apply Z.ltb_lt in E|apply Z.ltb_ge in E]; cbn [p_score with_score].
           ++ split; intros r Hr; [assert (r = m) by congruence|assert (r = d) by congruence]; subst; lia.
           ++ split; intros r Hr; [assert (r = m) by congruence|assert (r = d) by congruence]; subst; lia.
        -- intros id H1 H2. rewrite Hoth by auto. rewrite Hrel, rec_del_other by auto. apply Hs1; auto.
      * destruct (HN (update_net k p addrs d) (del_rec cur s1)) as [A B].
        destruct (normalize now (update_net k p addrs d) (del_rec cur s1)) as [r3 s3]. cbn [fst snd] in A, B.
        split; [apply Hput|]. split.
        -- exists r3. split; [apply rec_put_same|]. unfold agg. rewrite A, un_score.
           split; intros r Hr; [congruence|]. assert (r = d) by congruence. subst; lia.
        -- intros id H1 H2. rewrite Hoth by auto. unfold rec_of. rewrite B.
           transitivity (rec_of id s1); [apply rec_del_other; auto|apply Hs1; auto].
    + rewrite (evict_none _ _ Hd). destruct (rec_of cur s) as [m|] eqn:Hm.
      * split; [apply Hput|]. split.
        -- eexists. split; [apply rec_put_same|]. unfold agg. rewrite un_score.
           split; intros r Hr; [|congruence]. assert (r = m) by congruence. subst; lia.
        -- intros id H1 H2. rewrite Hoth by auto. apply rec_del_other; auto.
      * destruct (HN (update_net k p addrs (peer_new c now k p)) (del_rec cur s)) as [A B].
        destruct (normalize now (update_net k p addrs (peer_new c now k p)) (del_rec cur s)) as [r3 s3]. cbn [fst snd] in A, B.
        split; [apply Hput|]. split.
        -- exists r3. split; [apply rec_put_same|]. split; intros r Hr; congruence.
        -- intros id H1 H2. rewrite Hoth by auto. unfold rec_of. rewrite B. apply rec_del_other; auto.
Qed.

(* ---- examples ---- *)
Local Open Scope N_scope.
Theorem C50_example_cfg : cfg_ok (dcfg 5 5).
Proof.
  constructor; cbn; try lia.
  - intros d v Hv. assert (Hp : (0 < 2 ^ (Z.of_N d / 300))%Z) by (apply Z.pow_pos_nonneg; [lia|apply Z.div_pos; lia]).
    pose proof (Z.quot_opp_l v (2 ^ (Z.of_N d / 300)) ltac:(lia)) as Ho.
    pose proof (Z.quot_pos (- v) (2 ^ (Z.of_N d / 300)) ltac:(lia) ltac:(lia)).
    assert (Z.quot (- v) (2 ^ (Z.of_N d / 300)) <= - v)%Z by (apply Z.quot_le_upper_bound; nia). lia.
  - intros d v Hv. assert (Hp : (0 < 2 ^ (Z.of_N d / 300))%Z) by (apply Z.pow_pos_nonneg; [lia|apply Z.div_pos; lia]).
    split; [apply Z.quot_pos; lia|]. apply Z.quot_le_upper_bound; nia.
Qed.
(* ordinary peer 10 is banned and locked, member 100 (peer 11) and allowlisted 200 (peer 12) are exempt;
   the ban survives heartbeats up to the lock and is lifted later *)
Definition ex_scores : list ev :=
  [ EConnect 1 10 (at_ip 7) true; EConnect 2 11 (at_ip 8) true; EUpsert 3 100 11 []; ECommittees 4 [] [100] [];
    ETrusted 5 200 12; EHeartbeat 30; EPenalty 31 10 Severe; EPenalty 32 10 Fatal; EPenalty 33 11 Fatal; EPenalty 34 12 Fatal;
    EClosed 35 10 ].
Theorem C50_example : let c := dcfg 5 5 in let s := run c ex_scores empty_store in
  peer_banned c s 10 = true /\ peer_banned c s 11 = false /\ peer_banned c s 12 = false /\
  (match get_peer s 10 with Some r => s_upd (p_score r) | None => 0 end) = 1830 /\
  let s1 := run c [EHeartbeat 60; EPenalty 61 10 Mild; EHeartbeat 1829] s in
  peer_banned c s1 10 = true /\ b_total s1 = 1%nat /\
  let s2 := run c [EHeartbeat 1830; EHeartbeat 2430] s1 in
  peer_banned c s2 10 = false /\ b_total s2 = 0%nat.
Proof. vm_compute. repeat split. Qed.

(* ---- what does not hold ---- *)
(* A ban following a low (not banned) score is never lifted: a peer disconnected for its score is
   recorded as banned with a score that is not a banned one, and no number of heartbeats changes that. *)
Theorem C50_refuted_disconnect_ban_never_lifted : forall c l ts id r, cfg_ok c ->
  let s := run c l empty_store in
  rec_of id s = Some r -> in_banned r = true -> rep c r <> RBanned ->
  exists r', rec_of id (run c (map EHeartbeat ts) s) = Some r' /\ in_banned r' = true.
Proof.
  intros c l ts id r K. revert l r. induction ts as [|t ts IH]; intros l r s Hr Hb Hn; [exists r; auto|].
  destruct (hb_rec false false c t s id r (reach_inv c l) Hr) as [r1 [H1 [_ [_ [_ [_ H5]]]]]].
  assert (Es : step c s (EHeartbeat t) = run c (l ++ [EHeartbeat t]) empty_store) by (rewrite run_app; reflexivity).
  assert (Hb1 : in_banned r1 = true).
  { unfold in_banned in *. rewrite H5; auto. intros u E. rewrite E in Hb. discriminate Hb. }
  assert (Hn1 : rep c r1 <> RBanned).
  { destruct (C50_heartbeat_never_bans c l t id r K Hr) as [r2 [H2 [H3 _]]]. fold s in H2. cbn [step] in H2.
    assert (r2 = r1) by congruence. subst. auto. }
  cbn [map]. change (run c (EHeartbeat t :: map EHeartbeat ts) s) with (run c (map EHeartbeat ts) (step c s (EHeartbeat t))).
  rewrite Es. apply (IH (l ++ [EHeartbeat t]) r1); auto. rewrite <- Es. exact H1.
Qed.
(* it happens: two peers on one address, each with two severe penalties, and the address is closed *)
Definition two_low : list ev :=
  [ EConnect 1 10 (at_ip 7) true; EConnect 1 11 (at_ip 7) true; EPenalty 2 10 Severe; EPenalty 2 10 Severe;
    EPenalty 2 11 Severe; EPenalty 2 11 Severe; EClosed 3 10; EClosed 3 11 ].
Theorem C50_refuted_disconnect_ban_happens : let c := dcfg 5 5 in let s := run c two_low empty_store in
  (match get_peer s 10 with Some r => in_banned r && negb (rep_eqb (rep c r) RBanned) | None => false end) = true /\
  ip_banned s 7 = true /\ ip_banned (run c [EHeartbeat 100000] s) 7 = true /\
  peer_banned c (run c [EHeartbeat 100000] s) 10 = true.
Proof. vm_compute. repeat split. Qed.
(* The lock is counted from the last score update, which exempt peers do not get: a peer penalised
   right after leaving the committee is unbanned by the next heartbeat. *)
Theorem C50_refuted_stale_lock : let c := dcfg 5 5 in
  let s := run c [ EConnect 1 10 (at_ip 7) true; EUpsert 2 100 10 []; ECommittees 3 [] [100] []; EHeartbeat 86000;
                   ECommittees 86400 [] [] []; EPenalty 86401 10 Fatal ] empty_store in
  peer_banned c s 10 = true /\ peer_banned c (run c [EHeartbeat 86430] s) 10 = false.
Proof. vm_compute. repeat split. Qed.
(* The operator's allowlisting does not follow the identity: it is lost when the allowlisted peer comes
   back with a new network key, and gained by another identity that claims the old one. *)
Theorem C50_refuted_allowlist : let c := dcfg 5 5 in
  let s := run c [ETrusted 1 200 12] empty_store in
  trust_basis s (Confirmed 200) = true /\
  trust_basis (run c [EConnect 2 13 (at_ip 9) true; EUpsert 3 200 13 []] s) (Confirmed 200) = false /\
  trust_basis (run c [EUpsert 3 201 12 []] s) (Confirmed 201) = true.
Proof. vm_compute. repeat split. Qed.
(* A banned identity is shed by a record that names its network key under another identity. *)
Theorem C50_refuted_ban_shed : let c := dcfg 5 5 in
  let s := run c [EConnect 1 10 (at_ip 7) true; EUpsert 2 100 10 []; EPenalty 3 10 Fatal; EClosed 4 10] empty_store in
  let s' := run c [EUpsert 5 101 10 []; EUpsert 6 100 14 []] s in
  peer_banned c s 10 = true /\ identity_for s' 14 = Confirmed 100 /\ peer_banned c s' 14 = false /\
  (match get_peer s' 14 with Some r => s_agg (p_score r) | None => (-1)%Z end) = 0%Z.
Proof. vm_compute. repeat split. Qed.
(* A banned identity that reconnects under a new key is recognised as banned, but stays connected: no
   further penalty asks for a disconnect. *)
Theorem C50_refuted_banned_stays_connected : let c := dcfg 5 5 in
  let s := run c [EConnect 1 10 (at_ip 7) true; EUpsert 2 100 10 []; EPenalty 3 10 Fatal; EClosed 4 10;
                  EConnect 5 14 (at_ip 9) true; EUpsert 6 100 14 []] empty_store in
  peer_banned c s 14 = true /\ (match get_peer s 14 with Some r => is_conn_or_dial (p_status r) | None => false end) = true /\
  forall now pen, snd (process_penalty c now 14 pen s) = ANone.
Proof.
  split; [vm_compute; reflexivity|]. split; [vm_compute; reflexivity|].
  intros now pen. destruct pen; vm_compute; reflexivity.
Qed.
