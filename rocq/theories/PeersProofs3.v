(* The invariants of PeersProofs hold after every call, continued: eviction, promotion, pruning,
   forgiveness, and every history. *)
From Verif Require Import Util AMap PeersModel PeersSpec PeersProofs PeersProofs2.
Local Open Scope nat_scope.
Local Notation ieq := ident_eqb_eq.
Local Notation neq := N.eqb_eq.

(* ---------- eviction ---------- *)
Definition evict_idx (id : ident) (r : peer) (I : list (pid * bls)) : list (pid * bls) :=
  match id, p_net r with Confirmed _, Some p => del N.eqb p I | _, _ => I end.
Lemma evict_eq id s r : rec_of id s = Some r ->
  evict id s = (mkStore (del ident_eqb id (peers s)) (evict_idx id r (idx s)) (previous s) (current s) (next s)
                  (b_total s) (b_ips s) (disc s), Some r).
Proof. intros H. unfold evict. rewrite H. unfold evict_idx. destruct id; destruct (p_net r); reflexivity. Qed.

Lemma WF_evict P I id r : WF P I -> R id P = Some r -> WF (del ident_eqb id P) (evict_idx id r I).
Proof.
  intros [Hn Hi Hc Hu Hp] Hr. unfold R, IX in *.
  assert (G : forall j x, get ident_eqb j (del ident_eqb id P) = Some x -> j <> id /\ get ident_eqb j P = Some x).
  { intros j x Hx. destruct (eqb_dec ident_eqb ieq j id) as [->|Hne].
    - rewrite get_del_same in Hx. discriminate Hx.
    - rewrite (get_del_other ident_eqb ieq) in Hx by auto. auto. }
  assert (G' : forall j, j <> id -> get ident_eqb j (del ident_eqb id P) = get ident_eqb j P).
  { intros j Hne. apply get_del_other; [apply ieq|auto]. }
  constructor; unfold R, IX.
  - apply NoDup_del; auto.
  - intros p k. unfold evict_idx. destruct id as [k0|q0].
    + destruct (Hc _ _ Hr) as [_ [p0 Hp0]]. rewrite Hp0.
      assert (H0 : get N.eqb p0 I = Some k0) by (apply Hi; eauto).
      destruct (N.eq_dec p p0) as [->|Hne].
      * rewrite get_del_same. split; [congruence|]. intros [x [Hx Hx']]. apply G in Hx as [Hk Hx].
        exfalso. assert (get N.eqb p0 I = Some k) by (apply Hi; eauto). congruence.
      * rewrite (get_del_other N.eqb neq) by auto. rewrite Hi. split; intros [x [Hx Hx']].
        -- exists x. split; auto. rewrite G'; auto. intros E; inversion E; subst. congruence.
        -- apply G in Hx as [_ Hx]. eauto.
    + rewrite Hi. rewrite G' by congruence. tauto.
  - intros k x Hx. apply G in Hx as [_ Hx]. apply Hc; auto.
  - intros p x Hx. apply G in Hx as [_ Hx]. destruct (Hu _ _ Hx) as [A [B C]]. repeat split; auto.
    unfold evict_idx. destruct id; [|destruct (p_net r); auto]. destruct (p_net r) as [p0|]; auto.
    destruct (N.eq_dec p p0) as [->|Hne]; [apply get_del_same|]. rewrite (get_del_other N.eqb neq) by auto. auto.
  - intros j x Hx. apply G in Hx as [_ Hx]. eapply Hp; eauto.
Qed.
Lemma Inv_evict st ex s id r : Inv st ex s -> rec_of id s = Some r -> Inv st ex (release r (fst (evict id s))).
Proof.
  intros [W C] Hr. rewrite (evict_eq _ _ _ Hr). cbn [fst]. split.
  - rewrite release_peers, release_idx. cbn. apply WF_evict; auto.
  - rewrite release_peers. cbn [peers].
    pose proof (CT_release _ _ _ _ _ (wf_nd _ _ W) (wf_ips _ _ W _ _ Hr) Hr C) as C1.
    unfold release in *. destruct (p_status r); exact C1.
Qed.
Lemma evict_none id s : rec_of id s = None -> evict id s = (s, None).
Proof. intros H. unfold evict. rewrite H; auto. Qed.

Lemma WF_ext P I I' : (forall p, IX p I' = IX p I) -> WF P I -> WF P I'.
Proof.
  intros E [Hn Hi Hc Hu Hp]. constructor; auto.
  - intros p k. rewrite E. apply Hi.
  - intros p r H. rewrite E. apply Hu; auto.
Qed.

(* storing a confirmed record for p, after the record p resolved to is gone *)
Lemma WF_final P I k p r cur : WF P I -> R (Confirmed k) P = None -> NoDup (p_ips r) ->
  p_net r = Some p -> p_bls r = Some k ->
  cur = match IX p I with Some k' => Confirmed k' | None => Unident p end ->
  WF (put ident_eqb (Confirmed k) r (del ident_eqb cur P)) (put N.eqb p k I).
Proof.
  intros [Hn Hi Hc Hu Hp] Hk Hd En Eb Hcur. unfold R, IX in *.
  assert (G : forall j, j <> Confirmed k -> get ident_eqb j (put ident_eqb (Confirmed k) r (del ident_eqb cur P))
                        = get ident_eqb j (del ident_eqb cur P)).
  { intros j H. apply get_put_other; [apply ieq|auto]. }
  assert (GD : forall j x, get ident_eqb j (del ident_eqb cur P) = Some x -> j <> cur /\ get ident_eqb j P = Some x).
  { intros j x Hx. destruct (eqb_dec ident_eqb ieq j cur) as [->|Hne].
    - rewrite get_del_same in Hx. discriminate Hx.
    - rewrite (get_del_other ident_eqb ieq) in Hx by auto. auto. }
  assert (K0 : get ident_eqb (Confirmed k) (put ident_eqb (Confirmed k) r (del ident_eqb cur P)) = Some r)
    by (apply get_put_same, ieq).
  constructor; unfold R, IX.
  - apply NoDup_put; [apply ieq|]. apply NoDup_del; auto.
  - intros q k2. destruct (N.eq_dec p q) as [<-|Hne].
    + rewrite (get_put_same N.eqb neq). destruct (N.eq_dec k2 k) as [->|Hk2].
      * split; intros _; auto. eauto.
      * split; [congruence|]. rewrite G by congruence. intros [x [Hx Hx']]. apply GD in Hx as [Hc1 Hx].
        exfalso. assert (H : get N.eqb p I = Some k2) by (apply Hi; eauto). rewrite H in Hcur. congruence.
    + rewrite (get_put_other N.eqb neq) by auto. rewrite Hi. destruct (N.eq_dec k2 k) as [->|Hk2].
      * rewrite K0, Hk. split; intros [x [Hx Hx']]; [discriminate Hx|]. exfalso. congruence.
      * rewrite G by congruence. split; intros [x [Hx Hx']].
        -- exists x. split; auto. rewrite (get_del_other ident_eqb ieq); auto.
           intros E. rewrite <- E in Hx. destruct (get N.eqb p I) as [k'|] eqn:E1; [|congruence].
           apply Hi in E1 as [y [Hy Hy']]. rewrite Hcur in E. inversion E; subst k'. congruence.
        -- apply GD in Hx as [_ Hx]. eauto.
  - intros k2 x Hx. destruct (N.eq_dec k2 k) as [->|Hk2].
    + assert (x = r) by congruence. subst. eauto.
    + rewrite G in Hx by congruence. apply GD in Hx as [_ Hx]. apply Hc; auto.
  - intros q x Hx. rewrite G in Hx by congruence. apply GD in Hx as [Hcq Hx].
    destruct (Hu _ _ Hx) as [A [B C]]. repeat split; auto.
    destruct (N.eq_dec p q) as [<-|Hne].
    + exfalso. apply Hcq. rewrite C in Hcur. auto.
    + rewrite (get_put_other N.eqb neq) by auto. auto.
  - intros j x Hx. destruct (eqb_dec ident_eqb ieq j (Confirmed k)) as [->|Hne].
    + assert (x = r) by congruence. subst; auto.
    + rewrite G in Hx by auto. apply GD in Hx as [_ Hx]. eapply Hp; eauto.
Qed.

(* counters alone *)
Lemma CT_replace st ex s id r r' : NoDup (map fst (peers s)) -> NoDup (p_ips r) -> rec_of id s = Some r ->
  NoDup (p_ips r') -> CT st ex (peers s) (b_total s) (b_ips s) (disc s) ->
  let s' := acquire r' (release r s) in
  CT st ex (put ident_eqb id r' (peers s)) (b_total s') (b_ips s') (disc s').
Proof.
  intros Hnd Hn Hr Hd C s'.
  pose proof (CT_release _ _ _ _ _ Hnd Hn Hr C) as C1.
  set (s1 := del_rec id (release r s)).
  assert (E1 : peers s1 = del ident_eqb id (peers s)) by (cbn; rewrite release_peers; auto).
  assert (C2 : CT st ex (peers s1) (b_total s1) (b_ips s1) (disc s1)) by (rewrite E1; exact C1).
  assert (Hno : rec_of id s1 = None) by (unfold rec_of; rewrite E1; apply get_del_same).
  pose proof (CT_acquire _ _ _ id r' Hd Hno C2) as C3.
  rewrite E1, put_del in C3. unfold s'. unfold acquire in C3 |- *. destruct (p_status r'); exact C3.
Qed.
Lemma CT_same st ex P t m d P' : CT st ex P t m d ->
  cnt in_disconnected P' = cnt in_disconnected P -> cnt in_banned P' = cnt in_banned P ->
  (forall x, cnt (banned_seen_at x) P' = cnt (banned_seen_at x) P) -> CT st ex P' t m d.
Proof.
  intros [Hd Hg He Hi Hx] A B C. constructor; rewrite ?A, ?B; auto.
  - intros h x. rewrite C; auto.
  - intros h x. rewrite C; auto.
Qed.
(* moving a record to another identity, same status and addresses *)
Lemma CT_rename st ex P t m d id id' r r' : NoDup (map fst P) -> R id P = Some r -> R id' (del ident_eqb id P) = None ->
  p_status r' = p_status r -> p_ips r' = p_ips r -> CT st ex P t m d ->
  CT st ex (put ident_eqb id' r' (del ident_eqb id P)) t m d.
Proof.
  intros Hn Hr Hno Es Ei C.
  assert (E : forall f, f r' = f r -> cnt f (put ident_eqb id' r' (del ident_eqb id P)) = cnt f P).
  { intros f Hf. rewrite (cnt_put_new ident_eqb ieq f id' r' _ Hno).
    pose proof (cnt_del ident_eqb ieq f _ _ _ Hn Hr) as H. rewrite Hf. lia. }
  apply (CT_same _ _ _ _ _ _ _ C); [apply E|apply E|intros x; apply E].
  - unfold in_disconnected. rewrite Es; auto.
  - unfold in_banned; rewrite Es; auto.
  - unfold banned_seen_at, in_banned; rewrite Es, Ei; auto.
Qed.

Lemma un_net k p addrs r : let r' := update_net k p addrs r in
  p_net r' = Some p /\ p_bls r' = Some k /\ p_status r' = p_status r /\ p_ips r' = p_ips r /\
  p_score r' = p_score r /\ p_oper r' = p_oper r.
Proof.
  unfold update_net.
  set (r0 := mkPeer (Some k) (Some p) (p_score r) (p_addr r) (p_ips r) (p_status r) (p_oper r)).
  assert (H : forall l x, let y := fold_left (fun r a => note_multiaddr a r) l x in
     p_net y = p_net x /\ p_bls y = p_bls x /\ p_status y = p_status x /\ p_ips y = p_ips x /\
     p_score y = p_score x /\ p_oper y = p_oper x).
  { induction l as [|a l IH]; intros x; cbn; [auto 10|].
    destruct (IH (note_multiaddr a x)) as [A [B [C [D [E F]]]]]. cbn in *. rewrite A, B, C, D, E, F. auto 10. }
  destruct (H addrs r0) as [A [B [C [D [E F]]]]]. cbn. rewrite A, B, C, D, E, F. cbn. auto 10.
Qed.
Lemma rw_keys d m : p_status (retain_worse d m) = p_status m /\ p_ips (retain_worse d m) = p_ips m /\
  p_net (retain_worse d m) = p_net m /\ p_bls (retain_worse d m) = p_bls m /\ p_oper (retain_worse d m) = p_oper m.
Proof. unfold retain_worse. destruct (_ <? _)%Z; cbn; auto 10. Qed.

Lemma evict_keeps_ident st ex s k p r : Inv st ex s -> rec_of (Confirmed k) s = Some r ->
  identity_for s p <> Confirmed k ->
  IX p (evict_idx (Confirmed k) r (idx s)) = IX p (idx s).
Proof.
  intros [W _] Hr Hne. destruct (wf_conf _ _ W _ _ Hr) as [_ [p0 Hp0]].
  unfold evict_idx. rewrite Hp0. unfold IX. apply get_del_other; [apply neq|].
  intros ->. assert (H : IX p (idx s) = Some k) by (apply (wf_idx _ _ W); eauto).
  apply Hne. unfold identity_for, idx_of. unfold IX in H. rewrite H. auto.
Qed.

Lemma add_trusted_inv st ex c now k p s : Inv st ex s -> Inv st ex (add_trusted c now k p s).
Proof.
  intros HI. unfold add_trusted.
  set (cur := identity_for s p).
  set (s1 := if ident_eqb cur (Confirmed k) then s else let '(s', o) := evict cur s in opt_release o s').
  assert (H1 : Inv st ex s1 /\ (cur <> Confirmed k -> rec_of cur s1 = None) /\
     (cur <> Confirmed k -> rec_of (Confirmed k) s1 = rec_of (Confirmed k) s) /\ IX p (idx s1) = (if ident_eqb cur (Confirmed k) then Some k else None)).
  { unfold s1. destruct (ident_eqb cur (Confirmed k)) eqn:E.
    - apply ieq in E. split; auto. split; [contradiction|]. split; [contradiction|].
      unfold cur, identity_for in E. unfold IX. fold (idx_of p s). destruct (idx_of p s) eqn:E1; congruence.
    - assert (Hne : cur <> Confirmed k) by (intros H; apply ieq in H; congruence).
      destruct (rec_of cur s) as [r|] eqn:Hr.
      + pose proof (Inv_evict _ _ _ _ _ HI Hr) as HE. rewrite (evict_eq _ _ _ Hr) in *. cbn [fst opt_release] in *.
        split; auto. split; [|split].
        * intros _. unfold rec_of. rewrite release_peers. cbn. apply get_del_same.
        * intros _. unfold rec_of. rewrite release_peers. cbn. apply get_del_other; [apply ieq|auto].
        * rewrite release_idx. cbn. unfold IX, evict_idx. destruct cur as [k'|q] eqn:Ec; unfold cur in Ec.
          -- destruct (ident_conf _ _ _ _ _ HI Ec) as [r' [Hr' Hn']]. assert (r' = r) by congruence; subst.
             rewrite Hn'. apply get_del_same.
          -- destruct (ident_un _ _ _ Ec) as [_ H]. destruct (p_net r); exact H.
      + rewrite (evict_none _ _ Hr). cbn [opt_release]. split; auto. split; auto. split; auto.
        destruct cur as [k'|q] eqn:Ec; unfold cur in Ec.
        * destruct (ident_conf _ _ _ _ _ HI Ec) as [r' [Hr' _]]. congruence.
        * destruct (ident_un _ _ _ Ec) as [_ H]. exact H. }
  destruct H1 as [I1 [Hc1 [_ Hx1]]].
  set (s2 := let '(s', o) := evict (Confirmed k) s1 in opt_release o s').
  assert (H2 : Inv st ex s2 /\ rec_of (Confirmed k) s2 = None /\ IX p (idx s2) = None /\
               (cur <> Confirmed k -> rec_of cur s2 = None)).
  { unfold s2. destruct (rec_of (Confirmed k) s1) as [r|] eqn:Hr.
    - pose proof (Inv_evict _ _ _ _ _ I1 Hr) as HE.
      destruct (wf_conf _ _ (proj1 I1) _ _ Hr) as [_ [p0 Hp0]].
      rewrite (evict_eq _ _ _ Hr) in *. cbn [fst opt_release] in *.
      split; auto. split; [|split].
      + unfold rec_of. rewrite release_peers. cbn. apply get_del_same.
      + rewrite release_idx. cbn. unfold evict_idx, IX. rewrite Hp0.
        destruct (N.eq_dec p p0) as [->|Hne]; [apply get_del_same|].
        rewrite (get_del_other N.eqb neq) by auto. fold (IX p (idx s1)). rewrite Hx1.
        destruct (ident_eqb cur (Confirmed k)) eqn:E; auto.
        exfalso. assert (H : IX p (idx s1) = Some k) by (rewrite Hx1; auto).
        apply (wf_idx _ _ (proj1 I1)) in H as [y [Hy Hy']]. unfold rec_of in Hr. unfold R in Hy. congruence.
      + intros Hne. unfold rec_of. rewrite release_peers. cbn. rewrite (get_del_other ident_eqb ieq) by auto.
        apply Hc1; auto.
    - rewrite (evict_none _ _ Hr). cbn [opt_release]. split; auto. split; auto. split; auto.
      rewrite Hx1. destruct (ident_eqb cur (Confirmed k)) eqn:E; auto.
      assert (H : IX p (idx s1) = Some k) by (rewrite Hx1; auto).
      apply (wf_idx _ _ (proj1 I1)) in H as [y [Hy Hy']]. unfold rec_of in Hr. unfold R in Hy. congruence. }
  destruct H2 as [[W2 C2] [Hk2 [Hx2 Hc2]]].
  assert (Hun : rec_of (Unident p) s2 = None).
  { destruct (rec_of (Unident p) s2) as [r|] eqn:E; auto. exfalso.
    destruct cur as [k'|q] eqn:Ec.
    - (* p was confirmed: an unidentified record cannot exist in s, nor appear *)
      assert (Hs : rec_of (Unident p) s = Some r).
      { revert E. unfold s2, s1.
        assert (Ev : forall id x y, rec_of (Unident p) (let '(s', o) := evict id x in opt_release o s') = Some y ->
                       rec_of (Unident p) x = Some y).
        { intros id x y. destruct (rec_of id x) as [z|] eqn:Ez.
          - rewrite (evict_eq _ _ _ Ez). unfold opt_release, rec_of. rewrite release_peers. cbn.
            destruct (eqb_dec ident_eqb ieq id (Unident p)) as [->|Hne].
            + rewrite get_del_same. congruence.
            + rewrite (get_del_other ident_eqb ieq) by auto. auto.
          - rewrite (evict_none _ _ Ez). auto. }
        intros H. apply Ev in H. destruct (ident_eqb _ _); auto. apply Ev in H. auto. }
      destruct (wf_un _ _ (proj1 HI) _ _ Hs) as [_ [_ Hn]].
      unfold cur, identity_for, idx_of in Ec. unfold IX in Hn. rewrite Hn in Ec. discriminate Ec.
    - unfold cur in Ec. destruct (ident_un _ _ _ Ec) as [-> _].
      rewrite Hc2 in E; [discriminate E|congruence]. }
  split.
  - cbn. rewrite <- (del_absent ident_eqb (Unident p) (peers s2) Hun).
    apply WF_final; auto; [constructor|]. rewrite Hx2. auto.
  - cbn. exact (CT_acquire _ _ s2 (Confirmed k) (peer_trusted c now k p) ltac:(constructor) Hk2 C2).
Qed.

Lemma normalize_eq now r s : normalize now r s =
  (let r' := match p_status r with
             | Connected _ _ | Dialing _ | Disconnecting false => with_status (Disconnected now) r
             | Disconnecting true => with_status (Banned now) r
             | _ => r end in
   (r', match p_status r with
        | Connected _ _ | Dialing _ | Disconnecting _ => acquire r' s
        | _ => s end)).
Proof. unfold normalize. destruct (p_status r) as [| [|]| | | |]; reflexivity. Qed.

Lemma upsert_inv st ex c now k p addrs s : Inv st ex s -> Inv st ex (upsert c now k p addrs s).
Proof.
  intros HI. pose proof HI as [W C]. unfold upsert. set (cur := identity_for s p).
  destruct (ident_eqb cur (Confirmed k)) eqn:Ec.
  - (* repeat upsert *)
    apply ieq in Ec. destruct (ident_conf _ _ _ _ _ HI Ec) as [m [Hm Hn]]. rewrite Ec, Hm.
    destruct (un_net k p addrs m) as [A [B [D [E _]]]].
    destruct (wf_conf _ _ W _ _ Hm) as [Hb _].
    pose proof (Inv_same st ex s _ m (update_net k p addrs m) HI Hm ltac:(congruence) ltac:(congruence) D E) as [W' C'].
    split.
    + cbn. rewrite put_del. eapply WF_ext; [|exact W']. intros q. unfold IX. cbn.
      destruct (N.eqb q p) eqn:Eq.
      * apply N.eqb_eq in Eq; subst q. unfold cur, identity_for, idx_of in Ec.
        destruct (get N.eqb p (idx s)); congruence.
      * apply N.eqb_neq in Eq. apply get_del_other; [apply neq|auto].
    + cbn. rewrite put_del. exact C'.
  - assert (Hne : cur <> Confirmed k) by (intros H; apply ieq in H; congruence).
    destruct (rec_of (Confirmed k) s) as [d|] eqn:Hd.
    + (* a record under the confirmed identity is displaced *)
      rewrite (evict_eq _ _ _ Hd).
      set (s1 := mkStore (del ident_eqb (Confirmed k) (peers s)) (evict_idx (Confirmed k) d (idx s)) (previous s)
                   (current s) (next s) (b_total s) (b_ips s) (disc s)).
      assert (W1 : WF (peers s1) (idx s1)) by (apply WF_evict; auto).
      assert (Ecur : cur = match IX p (idx s1) with Some k' => Confirmed k' | None => Unident p end).
      { change (idx s1) with (evict_idx (Confirmed k) d (idx s)).
        rewrite (evict_keeps_ident st ex s k p d HI Hd Hne). reflexivity. }
      assert (Hk1 : R (Confirmed k) (peers s1) = None) by apply get_del_same.
      destruct (rec_of cur s1) as [m|] eqn:Hm.
      * (* both: the promoted record wins *)
        destruct (rw_keys d m) as [Q1 [Q2 _]].
        destruct (un_net k p addrs (retain_worse d m)) as [A [B [D [E _]]]].
        split.
        -- cbn. rewrite release_peers, release_idx. cbn. apply WF_final; auto.
           rewrite E, Q2. eapply wf_ips; [exact W1|exact Hm].
        -- cbn. rewrite release_peers. cbn [peers del_rec set_peers].
           pose proof (Inv_evict _ _ _ _ _ HI Hd) as [_ CE]. rewrite (evict_eq _ _ _ Hd) in CE. cbn [fst] in CE.
           fold s1 in CE. rewrite release_peers in CE.
           assert (CR : CT st ex (put ident_eqb (Confirmed k) (update_net k p addrs (retain_worse d m))
                          (del ident_eqb cur (peers s1))) (b_total (release d s1)) (b_ips (release d s1)) (disc (release d s1))).
           { eapply CT_rename; [apply W1|exact Hm| |congruence|congruence|exact CE].
             unfold R. rewrite get_del_other; [exact Hk1|apply ieq|exact Hne]. }
           unfold release in *. destruct (p_status d); exact CR.
      * (* carried across the rotation *)
        rewrite normalize_eq. destruct (un_net k p addrs d) as [A [B [D [E _]]]].
        set (u := update_net k p addrs d) in *. cbv zeta.
        set (r' := match p_status u with
             | Connected _ _ | Dialing _ | Disconnecting false => with_status (Disconnected now) u
             | Disconnecting true => with_status (Banned now) u
             | _ => u end).
        assert (Ar : p_net r' = Some p /\ p_bls r' = Some k /\ p_ips r' = p_ips d).
        { unfold r'. destruct (p_status u) as [| [|]| | | |]; cbn [p_net p_bls p_ips with_status];
            (split; [exact A|split; [exact B|exact E]]). }
        destruct Ar as [Ar1 [Ar2 Ar3]].
        assert (Hnd : NoDup (p_ips d)) by (exact (wf_ips _ _ W _ _ Hd)).
        assert (EP : peers (match p_status u with Connected _ _ | Dialing _ | Disconnecting _ => acquire r' (del_rec cur s1) | _ => del_rec cur s1 end)
                     = del ident_eqb cur (peers s1)).
        { destruct (p_status u); rewrite ?acquire_peers; reflexivity. }
        assert (EI : idx (match p_status u with Connected _ _ | Dialing _ | Disconnecting _ => acquire r' (del_rec cur s1) | _ => del_rec cur s1 end)
                     = idx s1).
        { destruct (p_status u); rewrite ?acquire_idx; reflexivity. }
        split.
        -- cbn [put_rec set_idx set_peers peers idx]. rewrite EP, EI. apply WF_final; auto. rewrite Ar3; auto.
        -- cbn [put_rec set_idx set_peers peers idx b_total b_ips disc]. rewrite EP.
           rewrite (del_absent ident_eqb cur (peers s1) Hm). cbn [s1 peers]. rewrite put_del.
           assert (CR : CT st ex (put ident_eqb (Confirmed k) r' (peers s)) (b_total (acquire r' (release d s)))
                          (b_ips (acquire r' (release d s))) (disc (acquire r' (release d s)))).
           { apply CT_replace; auto; [apply W|rewrite Ar3; auto]. }
           assert (CS : p_status r' = p_status d -> CT st ex (put ident_eqb (Confirmed k) r' (peers s)) (b_total s) (b_ips s) (disc s)).
           { intros Es. rewrite <- (put_del ident_eqb).
             apply (CT_rename _ _ _ _ _ _ (Confirmed k) (Confirmed k) d r' (wf_nd _ _ W) Hd (get_del_same _ _ _) Es Ar3 C). }
           unfold r' in *. rewrite D in *. unfold release, acquire in CR.
           destruct (p_status d) as [| [|]| | | |] eqn:Es; cbn in *; auto.
    + rewrite (evict_none _ _ Hd).
      destruct (rec_of cur s) as [m|] eqn:Hm.
      * destruct (un_net k p addrs m) as [A [B [D [E _]]]]. split.
        -- cbn. apply WF_final; auto. rewrite E. eapply wf_ips; eauto.
        -- cbn. apply (CT_rename _ _ _ _ _ _ cur (Confirmed k) m _ (wf_nd _ _ W) Hm); auto.
           unfold R. rewrite get_del_other; [exact Hd|apply ieq|exact Hne].
      * rewrite normalize_eq. destruct (un_net k p addrs (peer_new c now k p)) as [A [B [D [E _]]]].
        cbn in D, E. rewrite D. split.
        -- cbn. apply WF_final; auto. rewrite E. constructor.
        -- cbn. rewrite (del_absent ident_eqb cur (peers s) Hm).
           pose proof (CT_acquire st ex s (Confirmed k) (update_net k p addrs (peer_new c now k p))
                         ltac:(rewrite E; constructor) Hd C) as CA.
           unfold acquire in CA. rewrite D in CA. exact CA.
Qed.
