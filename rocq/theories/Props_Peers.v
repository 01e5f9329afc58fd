(* C49: the peer store keeps one record per peer, exact counts, a bounded number of disconnected and
   banned peers, and bans an address only for peers seen connecting from it. *)
From Verif Require Import Util AMap PeersModel PeersSpec PeersProofs PeersProofs2 PeersProofs3 PeersProofs4 PeersProofs5 PeersProofs6.
Local Open Scope nat_scope.

Lemma reach_inv c l : Inv false false (run c l empty_store).
Proof. apply run_inv, Inv_empty. Qed.
Lemma how_cnt f s : how_many f s = cnt f (peers s).
Proof. reflexivity. Qed.

(* ---- identities ---- *)
(* The identity under which a peer id is found is exactly the identity whose record holds that id. *)
Theorem C49_lookup_exact : forall c l p,
  let s := run c l empty_store in
  forall k, identity_for s p = Confirmed k <-> exists r, rec_of (Confirmed k) s = Some r /\ p_net r = Some p.
Proof.
  intros c l p s k. pose proof (reach_inv c l) as HI. fold s in HI. split.
  - intros H. eapply ident_conf; eauto.
  - intros [r [Hr Hp]]. apply (id_back false false s (Confirmed k) r); auto.
Qed.
(* No peer id has two records, and looking the id up finds the one there is. *)
Theorem C49_one_record_per_peer : forall c l id1 id2 r1 r2 p,
  let s := run c l empty_store in
  rec_of id1 s = Some r1 -> rec_of id2 s = Some r2 ->
  peer_id_for id1 r1 = Some p -> peer_id_for id2 r2 = Some p ->
  id1 = id2 /\ r1 = r2 /\ get_peer s p = Some r1.
Proof.
  intros c l id1 id2 r1 r2 p s H1 H2 P1 P2. pose proof (reach_inv c l) as HI. fold s in HI.
  pose proof (id_back _ _ _ _ _ _ HI H1 P1) as E1. pose proof (id_back _ _ _ _ _ _ HI H2 P2) as E2.
  assert (id1 = id2) by congruence. subst id2. split; auto. split; [congruence|]. unfold get_peer. rewrite E1. auto.
Qed.
(* A confirmed record carries its own key and a peer id; an unidentified one carries neither, and its
   peer id is not confirmed elsewhere. *)
Theorem C49_records_named : forall c l id r,
  let s := run c l empty_store in
  rec_of id s = Some r ->
  match id with
  | Confirmed k => p_bls r = Some k /\ exists p, p_net r = Some p
  | Unident p => p_bls r = None /\ p_net r = None /\ identity_for s p = Unident p
  end.
Proof.
  intros c l id r s Hr. pose proof (reach_inv c l) as HI. fold s in HI. destruct id as [k|p].
  - apply (wf_conf _ _ (proj1 HI)); auto.
  - destruct (wf_un _ _ (proj1 HI) _ _ Hr) as [A [B C]]. do 2 (split; auto).
    apply (id_back false false s (Unident p) r); auto.
Qed.

(* ---- counters ---- *)
Theorem C49_disconnected_count_exact : forall c l,
  let s := run c l empty_store in disc s = how_many in_disconnected s.
Proof. intros c l s. apply (proj2 (reach_inv c l)). Qed.
Theorem C49_banned_count_never_low : forall c l,
  let s := run c l empty_store in how_many in_banned s <= b_total s.
Proof. intros c l s. apply (proj2 (reach_inv c l)). Qed.
Theorem C49_banned_count_exact : forall c l,
  orderly c empty_store l -> let s := run c l empty_store in b_total s = how_many in_banned s.
Proof.
  intros c l Ho s. assert (H : Inv true false s) by (apply run_orderly; auto; [apply Inv_empty|congruence]).
  apply (ct_eq _ _ _ _ _ _ (proj2 H)); auto.
Qed.
(* How often an address is counted: at most once per banned peer seen connecting from it; exactly, as
   long as no committee member was forgiven. *)
Theorem C49_address_count : forall c l x,
  orderly c empty_store l ->
  let s := run c l empty_store in
  ip_count x (b_ips s) <= how_many (banned_seen_at x) s /\
  (forallb (fun e => negb (forgives e)) l = true -> ip_count x (b_ips s) = how_many (banned_seen_at x) s).
Proof.
  intros c l x Ho s. split.
  - assert (H : Inv true false s) by (apply run_orderly; auto; [apply Inv_empty|congruence]).
    apply (ct_ip _ _ _ _ _ _ (proj2 H)); auto.
  - intros Hf. assert (H : Inv true true s) by (apply run_orderly; auto; apply Inv_empty).
    apply (ct_ipeq _ _ _ _ _ _ (proj2 H)); auto.
Qed.
(* An address is banned only for two banned peers that were seen on it, on connections this node had:
   what peers say about themselves plays no part. The second half needs no assumption on the history. *)
Theorem C49_address_ban_earned : forall c l x,
  let s := run c l empty_store in
  ip_banned s x = true ->
  seen_on l x /\
  (orderly c empty_store l -> exists id1 id2 r1 r2, id1 <> id2 /\
     rec_of id1 s = Some r1 /\ rec_of id2 s = Some r2 /\
     in_banned r1 = true /\ in_banned r2 = true /\ In x (p_ips r1) /\ In x (p_ips r2)).
Proof.
  intros c l x s Hb. unfold ip_banned in Hb. apply Nat.ltb_lt in Hb. split.
  - assert (Ha : forall now p a inc, In (EConnect now p a inc) l -> addr_in (seen_on l) a).
    { intros now p a inc Hin. unfold addr_in. destruct (a_ip a) as [y|] eqn:E; auto. exists now, p, a, inc. auto. }
    pose proof (gd_run c (seen_on l) _ (closed_seen c (seen_on l)) l empty_store (gd_empty _ _) Ha) as [_ HI].
    apply HI. fold s. lia.
  - intros Ho. pose proof (proj1 (C49_address_count c l x Ho)) as Hc. fold s in Hc.
    pose proof (reach_inv c l) as HI. fold s in HI. unfold how_many in Hc.
    pose proof (NoDup_fst_filter (fun e => banned_seen_at x (snd e)) (peers s) (wf_nd _ _ (proj1 HI))) as Hn.
    assert (Hin : forall e, In e (filter (fun e => banned_seen_at x (snd e)) (peers s)) ->
                  rec_of (fst e) s = Some (snd e) /\ in_banned (snd e) = true /\ In x (p_ips (snd e))).
    { intros [id r] He. apply filter_In in He as [He Hx]. cbn in *. unfold banned_seen_at in Hx.
      apply andb_true_iff in Hx as [Hx1 Hx2]. apply memN_In in Hx2. split; auto. apply (peers_rec _ _ _ _ _ HI); auto. }
    destruct (filter (fun e => banned_seen_at x (snd e)) (peers s)) as [|e1 [|e2 t]]; cbn in Hc, Hn; try lia.
    destruct (Hin e1 (or_introl eq_refl)) as [A1 [A2 A3]]. destruct (Hin e2 (or_intror (or_introl eq_refl))) as [B1 [B2 B3]].
    exists (fst e1), (fst e2), (snd e1), (snd e2). split; [|auto 10].
    intros E. inversion Hn as [|? ? Hn1 _]; subst. apply Hn1. left; auto.
Qed.

(* ---- capacity ---- *)
(* When a connection has closed: at most the configured number of disconnected and of banned peers is
   kept, exactly the excess is dropped, the dropped ones are the oldest, nothing else changes. *)
Theorem C49_capacity : forall c l now p,
  let s := run c l empty_store in
  let s1 := fst (update_status c now p NDisconnected s) in
  let s' := step c s (EClosed now p) in
  how_many in_disconnected s' = Nat.min (how_many in_disconnected s1) (c_max_disc c) /\
  how_many in_banned s' <= c_max_banned c /\
  (orderly c empty_store l -> how_many in_banned s' = Nat.min (how_many in_banned s1) (c_max_banned c)) /\
  (forall id r, rec_of id s' = Some r -> rec_of id s1 = Some r) /\
  (forall id r, rec_of id s1 = Some r -> rec_of id s' = None ->
     (exists t, p_status r = Disconnected t /\
        forall id2 r2 t2, rec_of id2 s' = Some r2 -> p_status r2 = Disconnected t2 -> (t <= t2)%N) \/
     (exists t, p_status r = Banned t /\
        forall id2 r2 t2, rec_of id2 s' = Some r2 -> p_status r2 = Banned t2 -> (t <= t2)%N)).
Proof.
  intros c l now p s s1 s'. pose proof (reach_inv c l) as HI. fold s in HI.
  assert (HI1 : Inv false false s1) by (apply update_status_inv; auto; intros b E; discriminate E).
  assert (E' : s' = prune_banned c (prune_disconnected c s1)).
  { unfold s', s1. cbn [step]. unfold register_disconnected. destruct (update_status c now p NDisconnected s); reflexivity. }
  set (n1 := disc s1 - c_max_disc c). set (s2 := drop_all (map snd (collect c n1 disc_since s1)) s1).
  assert (E2 : prune_disconnected c s1 = s2) by (apply prune_disc_eq; apply (proj1 HI1)).
  assert (HI2 : Inv false false s2) by (apply drop_inv; auto).
  set (n2 := b_total s2 - c_max_banned c).
  assert (E3 : s' = drop_all (map snd (collect c n2 banned_since s2)) s2).
  { rewrite E', E2. apply prune_banned_eq. apply (proj1 HI2). }
  destruct (drop_oldest false false c n1 disc_since s1 HI1) as [O1 [C1 F1]]. fold s2 in O1, C1, F1. rewrite !disc_cnt in C1.
  destruct (drop_oldest false false c n2 banned_since s2 HI2) as [O2 [C2 F2]]. rewrite <- E3 in O2, C2, F2. rewrite !ban_cnt in C2.
  assert (Ed : disc s1 = cnt in_disconnected (peers s1)) by apply (proj2 HI1).
  assert (D2 : cnt in_disconnected (peers s') = cnt in_disconnected (peers s2)).
  { apply F2. intros r Hr. unfold in_disconnected in Hr. destruct (p_status r); auto; discriminate Hr. }
  assert (B2 : cnt in_banned (peers s2) = cnt in_banned (peers s1)).
  { apply F1. intros r Hr. unfold in_banned in Hr. destruct (p_status r); auto; discriminate Hr. }
  assert (G2 : cnt in_banned (peers s2) <= b_total s2) by apply (proj2 HI2).
  rewrite !how_cnt. split; [unfold n1 in *; lia|]. split; [unfold n2 in *; lia|]. split; [|split].
  - intros Ho. assert (HT : Inv true false s) by (apply run_orderly; auto; [apply Inv_empty|congruence]).
    assert (HT1 : Inv true false s1) by (apply update_status_inv; auto; intros b E; discriminate E).
    assert (HT2 : Inv true false s2) by (apply drop_inv; auto).
    pose proof (ct_eq _ _ _ _ _ _ (proj2 HT2) eq_refl) as Ht. unfold n2 in *. lia.
  - intros id r Hr. apply (og_rest _ _ _ O1), (og_rest _ _ _ O2); auto.
  - intros id r Hr Hg. destruct (rec_of id s2) as [r2|] eqn:Er2.
    + assert (r2 = r) by (pose proof (og_rest _ _ _ O1 _ _ Er2); congruence). subst r2. right.
      destruct (banned_since (p_status r)) as [t|] eqn:Eb.
      * exists t. split; [destruct (p_status r); cbn in Eb; congruence|].
        intros id2 r2 t2 Hr2 Hs2. apply (og_old _ _ _ O2 id r t Er2 Eb Hg id2 r2 t2); auto. rewrite Hs2; auto.
      * exfalso. rewrite (og_other _ _ _ O2 _ _ Er2 Eb) in Hg. discriminate Hg.
    + left. destruct (disc_since (p_status r)) as [t|] eqn:Eb.
      * exists t. split; [destruct (p_status r); cbn in Eb; congruence|].
        intros id2 r2 t2 Hr2 Hs2. apply (og_old _ _ _ O1 id r t Hr Eb Er2 id2 r2 t2).
        -- apply (og_rest _ _ _ O2); auto.
        -- rewrite Hs2; auto.
      * exfalso. rewrite (og_other _ _ _ O1 _ _ Hr Eb) in Er2. discriminate Er2.
Qed.

(* ---- committee members ---- *)
(* After the committees are set, no known member is banned, waiting to be banned, or on a banned
   address, and members are exempt from then on. *)
Theorem C49_members_not_banned : forall c l now a b d k p,
  (c_ban c < c_max c)%Z ->
  let s := step c (run c l empty_store) (ECommittees now a b d) in
  In k (a ++ b ++ d) -> identity_for s p = Confirmed k ->
  exists r, get_peer s p = Some r /\ peer_banned c s p = false /\ in_banned r = false /\
            p_status r <> Disconnecting true /\ exempt s (identity_for s p) r = true.
Proof.
  intros c l now a b d k p Hm s Hk Hp. pose proof (reach_inv c l) as HI. set (s0 := run c l empty_store) in *.
  set (s1 := mkStore (peers s0) (idx s0) a b d (b_total s0) (b_ips s0) (disc s0)).
  assert (HI1 : Inv false false s1) by exact HI.
  assert (Es : s = fold_left (forgive c now) (a ++ b ++ d) s1) by reflexivity.
  assert (HIs : Inv false false s) by (rewrite Es; apply forgives_inv; auto).
  destruct (ident_conf _ _ _ _ _ HIs Hp) as [r [Hr Hn]]. exists r.
  assert (HF : forgiven c s k) by (rewrite Es; apply (forgives_eff false); auto).
  destruct (HF r Hr) as [F1 [F2 [F3 F4]]].
  assert (Hg : get_peer s p = Some r) by (unfold get_peer; rewrite Hp; auto).
  split; auto. split; [|split; auto; split; auto].
  - unfold peer_banned. rewrite Hg. unfold rep, reputation_of. rewrite F3.
    destruct (c_max c <=? c_ban c)%Z eqn:E; [apply Z.leb_le in E; lia|].
    assert (Ei : existsb (ip_banned s) (p_ips r) = false).
    { destruct (existsb _ _) eqn:Ee; auto. apply existsb_exists in Ee as [x [Hx Hx']]. unfold ip_banned in Hx'.
      rewrite F4 in Hx' by auto. discriminate Hx'. }
    rewrite Ei. destruct (c_max c <=? c_disc c)%Z; reflexivity.
  - rewrite Hp. cbn [exempt]. assert (Hsl : in_slots s k = in_slots s1 k).
    { assert (Hfr : forall l t, Inv false false t -> previous (fold_left (forgive c now) l t) = previous t /\
                current (fold_left (forgive c now) l t) = current t /\ next (fold_left (forgive c now) l t) = next t).
      { induction l0 as [|k' l0 IH]; intros t Ht; cbn; auto.
        destruct (IH (forgive c now t k') (forgive_inv false c now t k' Ht)) as [A [B C]]. rewrite A, B, C.
        unfold forgive. destruct (rec_of (Confirmed k') t) as [r0|]; auto. destruct (p_net r0) as [q|]; auto.
        rewrite (ensure_eq false false) by auto.
        assert (HM : previous (made c now q t) = previous t /\ current (made c now q t) = current t /\ next (made c now q t) = next t)
          by (unfold made; destruct (rec_of (identity_for t q) t); auto).
        pose proof (us_frame false false c now q NUnbanned (made c now q t) (made_inv _ _ _ _ _ _ Ht)) as [_ [U1 [U2 [U3 _]]]].
        destruct HM as [M1 [M2 M3]].
        set (t2 := match p_status (made_rec c now q t) with Disconnecting true | Banned _ => _ | _ => made c now q t end).
        assert (H2 : previous t2 = previous t /\ current t2 = current t /\ next t2 = next t).
        { unfold t2. destruct (p_status (made_rec c now q t)) as [| [|]| | | |]; auto; rewrite U1, U2, U3; auto. }
        destruct (rec_of (Confirmed k') t2); auto. }
      destruct (Hfr (a ++ b ++ d) s1 HI1) as [A [B C]]. rewrite <- Es in A, B, C.
      unfold in_slots. rewrite A, B, C. reflexivity. }
    rewrite Hsl. unfold in_slots. cbn [s1 previous current next].
    apply orb_true_iff. left. rewrite !orb_true_iff, !memN_In. rewrite !in_app_iff in Hk. tauto.
Qed.

(* ---- examples: the hypotheses are met by histories that ban, evict and forgive ---- *)
(* config/network.rs 339-386, 453-498 with the default thresholds; the decay is rounded toward zero *)
Definition dcfg (mb md : nat) : cfg :=
  mkCfg 1000 0 100000 (-100000) (-20000) (-50000) 1800
    (fun d v => Z.quot v (2 ^ (Z.of_N d / 300)))%Z 15 mb md
    (fun id => match id with Confirmed k => 2 * k | Unident p => 2 * p + 1 end)%N.
Definition at_ip (x : N) : maddr := mkAddr (Some x) 0.
Local Open Scope N_scope.
Definition ex_bans : list ev :=
  [ EConnect 1 10 (at_ip 7) true; EConnect 2 11 (at_ip 7) true; EUpsert 3 100 10 []; EConnect 3 12 (at_ip 8) true;
    EPenalty 4 10 Fatal; EPenalty 5 11 Fatal; EClosed 6 10; EClosed 7 11; EClosed 8 12 ].
(* both bans are recorded, the address is banned, the third peer is not *)
Theorem C49_example : let s := run (dcfg 5 5) ex_bans empty_store in
  orderly (dcfg 5 5) empty_store ex_bans /\ forallb (fun e => negb (forgives e)) ex_bans = true /\
  b_total s = 2%nat /\ ip_count 7 (b_ips s) = 2%nat /\ ip_banned s 7 = true /\ ip_banned s 8 = false /\ disc s = 1%nat /\
  identity_for s 10 = Confirmed 100 /\ peer_banned (dcfg 5 5) s 10 = true /\ peer_banned (dcfg 5 5) s 12 = false.
Proof. vm_compute. repeat split. Qed.
(* with room for one banned and no disconnected peer, the older ban and the disconnected peer go *)
Theorem C49_example_capacity : let s := run (dcfg 1 0) ex_bans empty_store in
  how_many in_banned s = 1%nat /\ how_many in_disconnected s = 0%nat /\ get_peer s 10 = None /\ get_peer s 12 = None /\
  (match get_peer s 11 with Some r => in_banned r | None => false end) = true /\ ip_banned s 7 = false.
Proof. vm_compute. repeat split. Qed.
(* the banned member is forgiven and its address cleared *)
Theorem C49_example_forgiven : let s := run (dcfg 5 5) (ex_bans ++ [ECommittees 9 [] [100] []]) empty_store in
  identity_for s 10 = Confirmed 100 /\ peer_banned (dcfg 5 5) s 10 = false /\ ip_banned s 7 = false /\
  b_total s = 1%nat /\ disc s = 2%nat.
Proof. vm_compute. repeat split. Qed.

(* ---- what does not hold ---- *)
(* A request to disconnect a peer whose record is already banned (a peer-exchange goodbye arriving
   late, consensus.rs 1231, 1452) leaves one ban counted for no record; once there are as many of those
   as the limit, every new ban is pruned the moment it is recorded. *)
Definition phantom (p : N) : list ev :=
  [EConnect 1 p (at_ip p) true; EPenalty 2 p Fatal; EClosed 3 p; EDisconnect 4 p; EClosed 5 p].
Theorem C49_refuted_phantom_bans :
  let c := dcfg 2 5 in
  let s := run c (phantom 10 ++ phantom 11) empty_store in
  b_total s = 2%nat /\ how_many in_banned s = 0%nat /\
  let s' := run c [EConnect 6 12 (at_ip 12) true; EPenalty 7 12 Fatal; EClosed 8 12] s in
  get_peer s' 12 = None /\ peer_banned c s' 12 = false.
Proof. vm_compute. repeat split. Qed.
(* A peer about to be banned can turn the ban into a plain disconnect by sending a goodbye before the
   connection closes: the ban is not counted, nor its address. *)
Theorem C49_refuted_pending_ban_dropped :
  let c := dcfg 5 5 in
  let s := run c [EConnect 1 10 (at_ip 7) true; EPenalty 2 10 Fatal; EDisconnect 3 10; EClosed 4 10] empty_store in
  b_total s = 0%nat /\ ip_count 7 (b_ips s) = 0%nat /\ (match get_peer s 10 with Some r => in_banned r | None => true end) = false.
Proof. vm_compute. repeat split. Qed.
(* Whoever publishes a record naming another peer's network key takes over that peer's record: the
   victim's own identity is no longer known. *)
Theorem C49_refuted_identity_takeover :
  let c := dcfg 5 5 in
  let s := run c [EConnect 1 10 (at_ip 7) true; EUpsert 2 100 10 []] empty_store in
  let s' := run c [EUpsert 3 200 10 []] s in
  identity_for s 10 = Confirmed 100 /\ rec_of (Confirmed 100) s <> None /\
  identity_for s' 10 = Confirmed 200 /\ rec_of (Confirmed 100) s' = None.
Proof. vm_compute. repeat split. congruence. Qed.
