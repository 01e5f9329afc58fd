(* Invariants of the peer store (PeersModel). *)
From Verif Require Import Util AMap PeersModel PeersSpec.
Local Open Scope nat_scope.

Lemma ident_eqb_eq a b : ident_eqb a b = true <-> a = b.
Proof.
  destruct a, b; cbn; try (split; congruence); rewrite N.eqb_eq; split; congruence.
Qed.
Local Notation ieq := ident_eqb_eq.
Local Notation neq := N.eqb_eq.

Definition R (id : ident) (P : list (ident * peer)) := get ident_eqb id P.
Definition IX (p : pid) (I : list (pid * bls)) := get N.eqb p I.

(* ---------- the ip map ---------- *)
Lemma dec_ip_count x y m : ip_count x (dec_ip m y) = ip_count x m - (if N.eqb x y then 1 else 0).
Proof.
  unfold dec_ip, ip_count. destruct (get N.eqb y m) as [n|] eqn:E.
  - destruct (N.eqb x y) eqn:Exy.
    + apply N.eqb_eq in Exy; subst y. rewrite E. destruct (n - 1 =? 0) eqn:En.
      * rewrite (get_del_same N.eqb). apply Nat.eqb_eq in En. lia.
      * rewrite (get_put_same N.eqb neq). lia.
    + apply N.eqb_neq in Exy. destruct (n - 1 =? 0).
      * rewrite (get_del_other N.eqb neq) by congruence. lia.
      * rewrite (get_put_other N.eqb neq) by congruence. lia.
  - destruct (N.eqb x y) eqn:Exy; [|lia]. apply N.eqb_eq in Exy; subst. rewrite E. lia.
Qed.
Lemma dec_ips_count x ips : NoDup ips -> forall m,
  ip_count x (fold_left dec_ip ips m) = ip_count x m - (if memN x ips then 1 else 0).
Proof.
  induction ips as [|y ips IH]; intros Hd m; cbn; [lia|]. inversion Hd as [|? ? H1 H2]; subst.
  rewrite IH by auto. rewrite dec_ip_count. destruct (N.eqb x y) eqn:E; cbn.
  - apply N.eqb_eq in E; subst y. apply memN_nIn in H1. unfold memN in *. rewrite H1. lia.
  - fold (memN x ips). destruct (memN x ips); lia.
Qed.
Lemma inc_ip_count x y m : ip_count x (inc_ip m y) = ip_count x m + (if N.eqb x y then 1 else 0).
Proof.
  unfold inc_ip. unfold ip_count at 1. destruct (N.eqb x y) eqn:E.
  - apply N.eqb_eq in E; subst. rewrite (get_put_same N.eqb neq). lia.
  - apply N.eqb_neq in E. rewrite (get_put_other N.eqb neq) by congruence. fold (ip_count x m). lia.
Qed.
Lemma inc_ips_count x ips : NoDup ips -> forall m,
  ip_count x (fold_left inc_ip ips m) = ip_count x m + (if memN x ips then 1 else 0).
Proof.
  induction ips as [|y ips IH]; intros Hd m; cbn; [lia|]. inversion Hd as [|? ? H1 H2]; subst.
  rewrite IH by auto. rewrite inc_ip_count. destruct (N.eqb x y) eqn:E; cbn.
  - apply N.eqb_eq in E; subst y. apply memN_nIn in H1. unfold memN in *. rewrite H1. lia.
  - fold (memN x ips). destruct (memN x ips); lia.
Qed.
Lemma del_ips_count x ips : forall m,
  ip_count x (fold_left (fun m y => del N.eqb y m) ips m) = if memN x ips then 0 else ip_count x m.
Proof.
  induction ips as [|y ips IH]; intros m; cbn; auto. rewrite IH. unfold ip_count.
  destruct (N.eqb x y) eqn:E; cbn.
  - apply N.eqb_eq in E; subst. rewrite (get_del_same N.eqb). destruct (memN y ips); auto.
  - apply N.eqb_neq in E. rewrite (get_del_other N.eqb neq) by congruence. reflexivity.
Qed.
Lemma observe_NoDup a ips : NoDup ips -> NoDup (observe a ips).
Proof.
  intros H. unfold observe. destruct (a_ip a); auto. destruct (memN i ips) eqn:E; auto.
  constructor; auto. apply memN_nIn; auto.
Qed.

(* ---------- structure ---------- *)
Record WF (P : list (ident * peer)) (I : list (pid * bls)) : Prop := mkWF {
  wf_nd : NoDup (map fst P);
  wf_idx : forall p k, IX p I = Some k <-> exists r, R (Confirmed k) P = Some r /\ p_net r = Some p;
  wf_conf : forall k r, R (Confirmed k) P = Some r -> p_bls r = Some k /\ exists p, p_net r = Some p;
  wf_un : forall p r, R (Unident p) P = Some r -> p_bls r = None /\ p_net r = None /\ IX p I = None;
  wf_ips : forall id r, R id P = Some r -> NoDup (p_ips r) }.

(* ---------- counters ---------- *)
Record CT (st ex : bool) (P : list (ident * peer)) (t : nat) (m : list (ipaddr * nat)) (d : nat) : Prop := mkCT {
  ct_disc : d = cnt in_disconnected P;
  ct_ge : cnt in_banned P <= t;
  ct_eq : st = true -> t = cnt in_banned P;
  ct_ip : st = true -> forall x, ip_count x m <= cnt (banned_seen_at x) P;
  ct_ipeq : ex = true -> forall x, ip_count x m = cnt (banned_seen_at x) P }.

Definition acquire (r : peer) (s : store) : store :=
  match p_status r with
  | Disconnected _ => set_disc (disc s + 1) s
  | Banned _ => add_banned r s
  | _ => s
  end.

Definition Inv (st ex : bool) (s : store) : Prop :=
  WF (peers s) (idx s) /\ CT st ex (peers s) (b_total s) (b_ips s) (disc s).

Lemma CT_release st ex s id r : NoDup (map fst (peers s)) -> NoDup (p_ips r) ->
  rec_of id s = Some r -> CT st ex (peers s) (b_total s) (b_ips s) (disc s) ->
  CT st ex (del ident_eqb id (peers s)) (b_total (release r s)) (b_ips (release r s)) (disc (release r s)).
Proof.
  intros Hnd Hni Hr [Hd Hg He Hi Hx]. unfold rec_of in Hr.
  pose proof (cnt_del ident_eqb ieq in_disconnected _ _ _ Hnd Hr) as Cd.
  pose proof (cnt_del ident_eqb ieq in_banned _ _ _ Hnd Hr) as Cb.
  pose proof (fun x => cnt_del ident_eqb ieq (banned_seen_at x) _ _ _ Hnd Hr) as Cx.
  assert (E1 : in_disconnected r = is_disc (p_status r)) by reflexivity.
  assert (E2 : in_banned r = is_banned_st (p_status r)) by reflexivity.
  assert (E3 : forall x, banned_seen_at x r = is_banned_st (p_status r) && memN x (p_ips r)) by reflexivity.
  rewrite E1 in Cd. rewrite E2 in Cb. unfold release.
  destruct (p_status r) eqn:E; cbn [is_disc is_banned_st andb] in *;
    try (constructor; cbn [disc b_total b_ips set_disc]; [lia|lia|intros h; specialize (He h); lia
         |intros h x; specialize (Hi h x); specialize (Cx x); rewrite E3 in Cx; lia
         |intros h x; specialize (Hx h x); specialize (Cx x); rewrite E3 in Cx; lia]).
  constructor; cbn [disc b_total b_ips remove_banned add_banned set_bans]; [lia|lia|intros h; specialize (He h); lia| |].
  - intros h x. specialize (Hi h x); specialize (Cx x). rewrite E3 in Cx. rewrite dec_ips_count by auto.
    destruct (memN x (p_ips r)); lia.
  - intros h x. specialize (Hx h x); specialize (Cx x). rewrite E3 in Cx. rewrite dec_ips_count by auto.
    destruct (memN x (p_ips r)); lia.
Qed.
Lemma CT_acquire st ex s id r : NoDup (p_ips r) ->
  rec_of id s = None -> CT st ex (peers s) (b_total s) (b_ips s) (disc s) ->
  CT st ex (put ident_eqb id r (peers s)) (b_total (acquire r s)) (b_ips (acquire r s)) (disc (acquire r s)).
Proof.
  intros Hni Hr [Hd Hg He Hi Hx]. unfold rec_of in Hr.
  pose proof (cnt_put_new ident_eqb ieq in_disconnected _ r _ Hr) as Cd.
  pose proof (cnt_put_new ident_eqb ieq in_banned _ r _ Hr) as Cb.
  pose proof (fun x => cnt_put_new ident_eqb ieq (banned_seen_at x) _ r _ Hr) as Cx.
  assert (E1 : in_disconnected r = is_disc (p_status r)) by reflexivity.
  assert (E2 : in_banned r = is_banned_st (p_status r)) by reflexivity.
  assert (E3 : forall x, banned_seen_at x r = is_banned_st (p_status r) && memN x (p_ips r)) by reflexivity.
  rewrite E1 in Cd. rewrite E2 in Cb. unfold acquire.
  destruct (p_status r) eqn:E; cbn [is_disc is_banned_st andb] in *;
    try (constructor; cbn [disc b_total b_ips set_disc]; [lia|lia|intros h; specialize (He h); lia
         |intros h x; specialize (Hi h x); specialize (Cx x); rewrite E3 in Cx; lia
         |intros h x; specialize (Hx h x); specialize (Cx x); rewrite E3 in Cx; lia]).
  constructor; cbn [disc b_total b_ips remove_banned add_banned set_bans]; [lia|lia|intros h; specialize (He h); lia| |].
  - intros h x. specialize (Hi h x); specialize (Cx x). rewrite E3 in Cx. rewrite inc_ips_count by auto.
    destruct (memN x (p_ips r)); lia.
  - intros h x. specialize (Hx h x); specialize (Cx x). rewrite E3 in Cx. rewrite inc_ips_count by auto.
    destruct (memN x (p_ips r)); lia.
Qed.

Lemma release_peers r s : peers (release r s) = peers s.
Proof. unfold release. destruct (p_status r); reflexivity. Qed.
Lemma release_idx r s : idx (release r s) = idx s.
Proof. unfold release. destruct (p_status r); reflexivity. Qed.
Lemma acquire_peers r s : peers (acquire r s) = peers s.
Proof. unfold acquire. destruct (p_status r); reflexivity. Qed.
Lemma acquire_idx r s : idx (acquire r s) = idx s.
Proof. unfold acquire. destruct (p_status r); reflexivity. Qed.

(* replacing a record keeps the structure when its keys stay *)
Lemma WF_put P I id r r' : WF P I -> R id P = Some r -> p_net r' = p_net r -> p_bls r' = p_bls r ->
  NoDup (p_ips r') -> WF (put ident_eqb id r' P) I.
Proof.
  intros [Hn Hi Hc Hu Hp] Hr En Eb Hd. unfold R in *.
  assert (G : forall j, get ident_eqb j (put ident_eqb id r' P) = if ident_eqb id j then Some r' else get ident_eqb j P).
  { intros j. destruct (ident_eqb id j) eqn:E.
    - apply ieq in E; subst. apply get_put_same, ieq.
    - apply get_put_other; [apply ieq|]. intros ->. rewrite (eqb_rf ident_eqb ieq) in E; discriminate E. }
  constructor; unfold R.
  - apply NoDup_put; auto. apply ieq.
  - intros p k. rewrite Hi. rewrite G. destruct (ident_eqb id (Confirmed k)) eqn:E.
    + apply ieq in E; subst id. split; intros [x [H1 H2]].
      * exists r'. split; auto. congruence.
      * exists r. split; auto. congruence.
    + tauto.
  - intros k x Hx. rewrite G in Hx. destruct (ident_eqb id (Confirmed k)) eqn:E.
    + apply ieq in E; subst id. inversion Hx; subst x. rewrite En, Eb. apply Hc; auto.
    + apply Hc; auto.
  - intros p x Hx. rewrite G in Hx. destruct (ident_eqb id (Unident p)) eqn:E.
    + apply ieq in E; subst id. inversion Hx; subst x. rewrite En, Eb. apply Hu; auto.
    + apply Hu; auto.
  - intros j x Hx. rewrite G in Hx. destruct (ident_eqb id j) eqn:E; [inversion Hx; subst; auto|eapply Hp; eauto].
Qed.

Lemma Inv_replace st ex s id r r' : Inv st ex s -> rec_of id s = Some r ->
  p_net r' = p_net r -> p_bls r' = p_bls r -> NoDup (p_ips r') ->
  Inv st ex (put_rec id r' (acquire r' (release r s))).
Proof.
  intros [W C] Hr En Eb Hd. split.
  - cbn. rewrite acquire_peers, acquire_idx, release_peers, release_idx. eapply WF_put; eauto.
  - assert (Hn : NoDup (p_ips r)) by (eapply wf_ips; eauto).
    pose proof (CT_release _ _ _ _ _ (wf_nd _ _ W) Hn Hr C) as C1.
    set (s1 := del_rec id (release r s)).
    assert (E1 : peers s1 = del ident_eqb id (peers s)) by (cbn; rewrite release_peers; auto).
    assert (C2 : CT st ex (peers s1) (b_total s1) (b_ips s1) (disc s1)) by (rewrite E1; exact C1).
    assert (Hno : rec_of id s1 = None) by (unfold rec_of; rewrite E1; apply get_del_same).
    pose proof (CT_acquire _ _ _ id r' Hd Hno C2) as C3.
    rewrite E1, put_del in C3.
    unfold put_rec. cbn. rewrite acquire_peers, release_peers.
    unfold acquire in C3 |- *. destruct (p_status r'); exact C3.
Qed.
Lemma cnt_same f id r r' P : NoDup (map fst P) -> R id P = Some r -> f r' = f r ->
  cnt f (put ident_eqb id r' P) = cnt f P.
Proof.
  intros Hn Hr He. pose proof (cnt_del ident_eqb ieq f _ _ _ Hn Hr) as H.
  rewrite <- (put_del ident_eqb). rewrite (cnt_put_new ident_eqb ieq) by apply get_del_same. rewrite He. lia.
Qed.
(* changing a record without touching its keys, status or seen addresses *)
Lemma Inv_same st ex s id r r' : Inv st ex s -> rec_of id s = Some r ->
  p_net r' = p_net r -> p_bls r' = p_bls r -> p_status r' = p_status r -> p_ips r' = p_ips r ->
  Inv st ex (put_rec id r' s).
Proof.
  intros [W C] Hr En Eb Es Ei. split.
  - cbn. eapply WF_put; eauto. rewrite Ei. eapply wf_ips; eauto.
  - cbn. destruct C as [Hd Hg He Hi Hx].
    assert (E : forall f, f r' = f r -> cnt f (put ident_eqb id r' (peers s)) = cnt f (peers s)).
    { intros f Hf. eapply cnt_same; eauto. apply W. }
    assert (Ed : in_disconnected r' = in_disconnected r) by (unfold in_disconnected; rewrite Es; auto).
    assert (Ebn : in_banned r' = in_banned r) by (unfold in_banned; rewrite Es; auto).
    assert (Ex : forall x, banned_seen_at x r' = banned_seen_at x r)
      by (intros x; unfold banned_seen_at; rewrite Ebn, Ei; auto).
    constructor; rewrite ?(E _ Ed), ?(E _ Ebn); auto.
    + intros h x. rewrite (E _ (Ex x)); auto.
    + intros h x. rewrite (E _ (Ex x)); auto.
Qed.
