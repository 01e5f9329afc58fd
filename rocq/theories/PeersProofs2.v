(* The invariants of PeersProofs hold after every call. *)
From Verif Require Import Util AMap PeersModel PeersSpec PeersProofs.
Local Open Scope nat_scope.
Local Notation ieq := ident_eqb_eq.
Local Notation neq := N.eqb_eq.

Lemma rec_put_same id r s : rec_of id (put_rec id r s) = Some r.
Proof. unfold rec_of, put_rec; cbn [peers set_peers]. apply get_put_same, ieq. Qed.
Lemma rec_put_other id j r s : id <> j -> rec_of j (put_rec id r s) = rec_of j s.
Proof. intros H. unfold rec_of, put_rec; cbn [peers set_peers]. apply get_put_other; auto. apply ieq. Qed.
Lemma rec_del_same id s : rec_of id (del_rec id s) = None.
Proof. unfold rec_of, del_rec; cbn [peers set_peers]. apply get_del_same. Qed.
Lemma rec_del_other id j s : id <> j -> rec_of j (del_rec id s) = rec_of j s.
Proof. intros H. unfold rec_of, del_rec; cbn [peers set_peers]. apply get_del_other; auto. apply ieq. Qed.
Lemma ident_for_idx s s' p : idx s = idx s' -> identity_for s p = identity_for s' p.
Proof. unfold identity_for, idx_of. intros ->; auto. Qed.

Lemma ident_conf st ex s p k : Inv st ex s -> identity_for s p = Confirmed k ->
  exists r, rec_of (Confirmed k) s = Some r /\ p_net r = Some p.
Proof.
  intros [W _] H. unfold identity_for in H. destruct (idx_of p s) as [k'|] eqn:E; [|discriminate H].
  assert (k' = k) by congruence; subst. apply (wf_idx _ _ W) in E. exact E.
Qed.
Lemma ident_un s p q : identity_for s p = Unident q -> q = p /\ idx_of p s = None.
Proof. unfold identity_for. destruct (idx_of p s) eqn:E; intros H; inversion H; auto. Qed.

Lemma WF_new_un P I p r : WF P I -> R (Unident p) P = None -> IX p I = None ->
  p_net r = None -> p_bls r = None -> NoDup (p_ips r) -> WF (put ident_eqb (Unident p) r P) I.
Proof.
  intros [Hn Hi Hc Hu Hp] Hr HI En Eb Hd. unfold R in *.
  assert (G : forall k, get ident_eqb (Confirmed k) (put ident_eqb (Unident p) r P) = get ident_eqb (Confirmed k) P).
  { intros k. apply get_put_other; [apply ieq|congruence]. }
  constructor; unfold R.
  - apply NoDup_put; auto. apply ieq.
  - intros q k. rewrite Hi, G. tauto.
  - intros k x. rewrite G. apply Hc.
  - intros q x Hx. destruct (N.eq_dec p q) as [->|Hne].
    + rewrite (get_put_same ident_eqb ieq) in Hx. inversion Hx; subst. auto.
    + rewrite (get_put_other ident_eqb ieq) in Hx by congruence. apply Hu; auto.
  - intros j x Hx. destruct (eqb_dec ident_eqb ieq (Unident p) j) as [<-|Hne].
    + rewrite (get_put_same ident_eqb ieq) in Hx. inversion Hx; subst. auto.
    + rewrite (get_put_other ident_eqb ieq) in Hx by auto. eapply Hp; eauto.
Qed.
Lemma Inv_new_un st ex c now s p : Inv st ex s -> identity_for s p = Unident p -> rec_of (Unident p) s = None ->
  Inv st ex (put_rec (Unident p) (peer_default c now) s).
Proof.
  intros [W C] Hi Hr. destruct (ident_un _ _ _ Hi) as [_ HI]. split.
  - cbn. apply WF_new_un; auto. constructor.
  - change (put_rec (Unident p) (peer_default c now) s)
      with (put_rec (Unident p) (peer_default c now) (acquire (peer_default c now) s)).
    cbn [put_rec set_peers peers b_total b_ips disc].
    rewrite acquire_peers. apply CT_acquire; auto. constructor.
Qed.

(* what ensure_peer_exists does on a well formed store *)
Lemma not_stale st ex s p : Inv st ex s ->
  (match identity_for s p with Confirmed k => match rec_of (Confirmed k) s with Some _ => false | None => true end | Unident _ => false end) = false.
Proof.
  intros HI. destruct (identity_for s p) as [k|q] eqn:Ei; auto.
  destruct (ident_conf _ _ _ _ _ HI Ei) as [r [H _]]. rewrite H; auto.
Qed.
Lemma absent_un st ex s p : Inv st ex s -> rec_of (identity_for s p) s = None -> identity_for s p = Unident p.
Proof.
  intros HI Hr. destruct (identity_for s p) as [k|q] eqn:Ei.
  - destruct (ident_conf _ _ _ _ _ HI Ei) as [r [H _]]. congruence.
  - destruct (ident_un _ _ _ Ei) as [-> _]. auto.
Qed.
Definition made (c : cfg) (now : N) (p : pid) (s : store) : store :=
  match rec_of (identity_for s p) s with
  | Some _ => s
  | None => put_rec (identity_for s p) (peer_default c now) s
  end.
Definition made_rec (c : cfg) (now : N) (p : pid) (s : store) : peer :=
  match rec_of (identity_for s p) s with Some r => r | None => peer_default c now end.
Lemma made_ident c now p s : identity_for (made c now p s) p = identity_for s p.
Proof. apply ident_for_idx. unfold made. destruct (rec_of _ _); auto. Qed.
Lemma made_rec_of c now p s : rec_of (identity_for s p) (made c now p s) = Some (made_rec c now p s).
Proof. unfold made, made_rec. destruct (rec_of (identity_for s p) s) eqn:E; auto. apply rec_put_same. Qed.
Lemma made_inv st ex c now p s : Inv st ex s -> Inv st ex (made c now p s).
Proof.
  intros HI. unfold made. destruct (rec_of (identity_for s p) s) eqn:Hr; auto.
  pose proof (absent_un _ _ _ _ HI Hr) as E. rewrite E in *. apply Inv_new_un; auto.
Qed.
Lemma ensure_eq st ex c now p ns s : Inv st ex s ->
  ensure_exists c now p ns s =
  (match ns with
   | NBanned => put_rec (identity_for s p)
                  (ensure_banned c (trust_basis (made c now p s) (identity_for s p)) (made_rec c now p s))
                  (made c now p s)
   | _ => made c now p s
   end, p_status (made_rec c now p s)).
Proof.
  intros HI. unfold ensure_exists. cbv zeta. rewrite (not_stale st ex s p HI). fold (made c now p s).
  rewrite made_ident, made_rec_of.
  destruct ns; try (rewrite made_rec_of; reflexivity).
  rewrite rec_put_same. f_equal. unfold ensure_banned, apply_penalty.
  destruct (rep c (made_rec c now p s)); auto; destruct (trust_basis _ _); auto.
Qed.

Lemma Inv_phantom ex' s id r b t : Inv false ex' s -> ex' = false -> rec_of id s = Some r -> p_status r = Banned t ->
  Inv false ex' (put_rec id (with_status (Disconnecting b) r) s).
Proof.
  intros [W C] Hf Hr Hs. split.
  - cbn. eapply WF_put; eauto. cbn. eapply wf_ips; eauto.
  - cbn. destruct C as [Hd Hg He Hi Hx]. unfold rec_of in Hr.
    pose proof (cnt_del ident_eqb ieq in_banned _ _ _ (wf_nd _ _ W) Hr) as Cb.
    constructor.
    + rewrite Hd. symmetry. eapply cnt_same; eauto; [apply W|]. unfold in_disconnected; cbn; rewrite Hs; auto.
    + rewrite <- (put_del ident_eqb), (cnt_put_new ident_eqb ieq) by apply get_del_same.
      unfold in_banned in Cb at 3; rewrite Hs in Cb. cbn in *. lia.
    + congruence.
    + congruence.
    + subst; congruence.
Qed.

Lemma put_put id r r' s : put_rec id r' (put_rec id r s) = put_rec id r' s.
Proof.
  unfold put_rec, set_peers; cbn [peers idx previous current next b_total b_ips disc]. f_equal.
  unfold put. f_equal. cbn. rewrite (eqb_rf ident_eqb ieq). cbn. apply del_del.
Qed.

(* the transition functions on a record with the status they are told *)
Lemma to_connected_inv st ex s p r a inc : Inv st ex s -> rec_of (identity_for s p) s = Some r ->
  Inv st ex (to_connected p (p_status r) a inc s).
Proof.
  intros HI Hr. assert (Hd : NoDup (p_ips r)) by (eapply wf_ips; [apply HI|exact Hr]).
  unfold to_connected. rewrite Hr.
  assert (E : Inv st ex (put_rec (identity_for s p) (register_conn a inc r) (acquire (register_conn a inc r) (release r s)))).
  { eapply Inv_replace; eauto. cbn. apply observe_NoDup; auto. }
  assert (EA : acquire (register_conn a inc r) (release r s) = release r s).
  { unfold acquire, register_conn; cbn. destruct (p_status r), inc; reflexivity. }
  rewrite EA in E. exact E.
Qed.
Lemma to_dialing_inv st ex s p r now : Inv st ex s -> rec_of (identity_for s p) s = Some r ->
  Inv st ex (to_dialing now p (p_status r) s).
Proof.
  intros HI Hr. assert (Hd : NoDup (p_ips r)) by (eapply wf_ips; [apply HI|exact Hr]).
  unfold to_dialing. rewrite Hr. unfold register_dialing.
  assert (E : Inv st ex (put_rec (identity_for s p) (with_status (Dialing now) r) (acquire (with_status (Dialing now) r) (release r s)))).
  { eapply Inv_replace; eauto. }
  unfold acquire, release in E; cbn [p_status with_status] in E.
  destruct (p_status r) eqn:Es; try exact E; eapply Inv_same; eauto.
Qed.
Lemma to_disconnected_inv st ex s p r now : Inv st ex s -> rec_of (identity_for s p) s = Some r ->
  Inv st ex (fst (to_disconnected now p (p_status r) s)).
Proof.
  intros HI Hr. assert (Hd : NoDup (p_ips r)) by (eapply wf_ips; [apply HI|exact Hr]).
  assert (E1 : Inv st ex (put_rec (identity_for s p) (with_status (Disconnected now) r)
                 (acquire (with_status (Disconnected now) r) (release r s)))) by (eapply Inv_replace; eauto).
  assert (E2 : Inv st ex (put_rec (identity_for s p) (with_status (Banned now) r)
                 (acquire (with_status (Banned now) r) (release r s)))) by (eapply Inv_replace; eauto).
  unfold acquire, release in E1, E2; cbn [p_status with_status] in E1, E2.
  unfold to_disconnected, set_status, to_disconnected_banned.
  change (identity_for (set_disc (disc s + 1) s) p) with (identity_for s p).
  change (rec_of (identity_for s p) (set_disc (disc s + 1) s)) with (rec_of (identity_for s p) s).
  destruct (p_status r) as [i o|[|]|t|t|t|] eqn:Es; cbn [fst]; try exact HI; rewrite Hr; try exact E1. exact E2.
Qed.
Lemma to_disconnecting_inv st ex s p r b : Inv st ex s -> rec_of (identity_for s p) s = Some r ->
  (st || ex = true -> in_banned r = false) ->
  Inv st ex (fst (to_disconnecting p (p_status r) b s)).
Proof.
  intros HI Hr Hok. assert (Hd : NoDup (p_ips r)) by (eapply wf_ips; [apply HI|exact Hr]).
  assert (E : Inv st ex (put_rec (identity_for s p) (with_status (Disconnecting b) r)
                 (acquire (with_status (Disconnecting b) r) (release r s)))) by (eapply Inv_replace; eauto).
  unfold acquire, release in E; cbn [p_status with_status] in E.
  unfold to_disconnecting, set_status. rewrite Hr. unfold in_banned in Hok.
  destruct (p_status r) as [i o|b'|t|t|t|] eqn:Es; cbn [fst]; try exact E.
  cbn in Hok. destruct st; [discriminate (Hok eq_refl)|]. destruct ex; [discriminate (Hok eq_refl)|].
  eapply Inv_phantom; eauto.
Qed.
Lemma to_banned_inv st ex s p r now : Inv st ex s -> rec_of (identity_for s p) s = Some r ->
  Inv st ex (fst (to_banned now p (p_status r) s)).
Proof.
  intros HI Hr. assert (Hd : NoDup (p_ips r)) by (eapply wf_ips; [apply HI|exact Hr]).
  assert (E1 : Inv st ex (put_rec (identity_for s p) (with_status (Disconnecting true) r)
                 (acquire (with_status (Disconnecting true) r) (release r s)))) by (eapply Inv_replace; eauto).
  assert (E2 : Inv st ex (put_rec (identity_for s p) (with_status (Banned now) r)
                 (acquire (with_status (Banned now) r) (release r s)))) by (eapply Inv_replace; eauto).
  unfold acquire, release in E1, E2; cbn [p_status with_status] in E1, E2.
  unfold to_banned. rewrite Hr. destruct (p_status r) as [i o|b'|t|t|t|] eqn:Es; cbn [fst is_banned_st]; auto.
Qed.
Lemma to_unbanned_inv st ex s p r : Inv st ex s -> rec_of (identity_for s p) s = Some r ->
  Inv st ex (fst (to_unbanned p (p_status r) s)).
Proof.
  intros HI Hr. assert (Hd : NoDup (p_ips r)) by (eapply wf_ips; [apply HI|exact Hr]).
  assert (E1 : Inv st ex (put_rec (identity_for s p) (with_status (Disconnecting false) r)
                 (acquire (with_status (Disconnecting false) r) (release r s)))) by (eapply Inv_replace; eauto).
  assert (E2 : forall t, Inv st ex (put_rec (identity_for s p) (with_status (Disconnected t) r)
                 (acquire (with_status (Disconnected t) r) (release r s)))) by (intros; eapply Inv_replace; eauto).
  unfold acquire, release in E1, E2; cbn [p_status with_status] in E1, E2.
  unfold to_unbanned. rewrite Hr. destruct (p_status r) as [i o|[|]|t|t|t|] eqn:Es; cbn [fst]; auto.
  exact (E2 t).
Qed.

Lemma update_status_inv st ex c now p ns s : Inv st ex s ->
  (forall b, ns = NDisconnecting b -> st || ex = true ->
     forall r, get_peer s p = Some r -> in_banned r = false) ->
  Inv st ex (fst (update_status c now p ns s)).
Proof.
  intros HI Hok. unfold update_status. rewrite (ensure_eq st ex) by auto.
  pose proof (made_inv st ex c now p s HI) as HM.
  pose proof (made_rec_of c now p s) as Hr.
  set (r := made_rec c now p s) in *. set (s1 := made c now p s) in *.
  assert (Ei : identity_for s1 p = identity_for s p) by apply made_ident.
  rewrite <- Ei in Hr.
  destruct ns as [a inc|b| | | |]; cbn [fst].
  - apply to_connected_inv; auto.
  - apply to_disconnecting_inv; auto. intros h. unfold r, made_rec.
    destruct (rec_of (identity_for s p) s) as [r0|] eqn:H0; auto. apply (Hok b eq_refl h); auto.
  - apply to_dialing_inv; auto.
  - apply to_disconnected_inv; auto.
  - set (r' := ensure_banned c (trust_basis s1 (identity_for s p)) r).
    assert (Es : p_status r' = p_status r /\ p_net r' = p_net r /\ p_bls r' = p_bls r /\ p_ips r' = p_ips r).
    { unfold r', ensure_banned, apply_penalty. destruct (rep c r); auto; destruct (trust_basis _ _); auto. }
    destruct Es as [Es [En [Eb Ep]]]. rewrite <- Es.
    apply to_banned_inv.
    + eapply Inv_same; eauto. rewrite <- Ei; auto.
    + rewrite (ident_for_idx _ s1 p) by reflexivity. rewrite Ei. apply rec_put_same.
  - apply to_unbanned_inv; auto.
Qed.
