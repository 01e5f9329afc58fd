(* C54: the directory that resolves committee members holds exactly what it may hold. *)
From Verif Require Import Util AMap PeersModel PeersSpec PeersProofs PeersProofs2 PeersProofs3 PeersProofs4 PeersProofs6 CacheModel MgrModel MgrSpec MgrDirSpec MgrProofs MgrProofs6.
Local Open Scope N_scope.
Local Notation neq := N.eqb_eq.

Definition at_start (local : pid) (dur : N) (n : nat) (g : mcfg) (l : list mev) : mgr := mrun g l (mgr_new local dur n).

Lemma set_add_in x k l : In x (set_add k l) <-> x = k \/ In x l.
Proof. unfold set_add. destruct (memN k l) eqn:E; cbn; [|intuition auto]. apply memN_In in E. split; [auto|intros [->|]; auto]. Qed.
Lemma run_snoc g l e m : mrun g (l ++ [e]) m = mstep g (mrun g l m) e.
Proof. unfold mrun. rewrite fold_left_app. reflexivity. Qed.
Lemma in_slots_of s a b d k : slots s = (a, b, d) -> in_slots s k = memN k a || memN k b || memN k d.
Proof. unfold slots, in_slots. intros E. injection E as -> -> ->. reflexivity. Qed.
Lemma current_slot s a b d : slots s = (a, b, d) -> current s = b.
Proof. unfold slots. congruence. Qed.
Lemma slots_members local dur n g l : forall k, in_slots (m_store (at_start local dur n g l)) k = memN k (members l).
Proof.
  induction l as [|e l IH] using rev_ind; intros k; [reflexivity|]. unfold at_start in *. rewrite run_snoc.
  pose proof (mstep_slots g (mrun g l (mgr_new local dur n)) e) as S. unfold members. rewrite fold_left_app. cbn [fold_left]. fold (members l).
  assert (Q : slots (m_store (mstep g (mrun g l (mgr_new local dur n)) e)) = slots (m_store (mrun g l (mgr_new local dur n))) ->
    in_slots (m_store (mstep g (mrun g l (mgr_new local dur n)) e)) k = memN k (members l)) by (intros H; rewrite (in_slots_eq _ _ k H); apply IH).
  destruct e; auto. rewrite (in_slots_of _ _ _ _ k S).
  apply eq_true_iff_eq. rewrite !orb_true_iff, !memN_In, !in_app_iff. tauto.
Qed.
Lemma current_members local dur n g l : current (m_store (at_start local dur n g l)) = current_of l.
Proof.
  induction l as [|e l IH] using rev_ind; [reflexivity|]. unfold at_start in *. rewrite run_snoc.
  pose proof (mstep_slots g (mrun g l (mgr_new local dur n)) e) as S. unfold current_of. rewrite fold_left_app. cbn [fold_left]. fold (current_of l).
  destruct e; rewrite (current_slot _ _ _ _ S); auto.
Qed.
Lemma pinned_provisioned local dur n g l : forall k, In k (m_pinned (at_start local dur n g l)) <-> In k (provisioned l).
Proof.
  induction l as [|e l IH] using rev_ind; intros k; [reflexivity|]. unfold at_start in *. rewrite run_snoc.
  pose proof (mstep_dir g (mrun g l (mgr_new local dur n)) e) as D. unfold provisioned. rewrite flat_map_app. fold (provisioned l). rewrite in_app_iff, <- IH.
  unfold dirv in D. destruct e; pose proof (f_equal fst D) as D1; pose proof (f_equal snd D) as D2; cbn [fst snd] in D1, D2; rewrite D2; cbn [flat_map app In]; rewrite ?set_add_in; intuition auto.
Qed.
Lemma get_in_dec (k : bls) (m : list (bls * info)) : In k (map fst m) <-> get N.eqb k m <> None.
Proof.
  split; intros H.
  - intros E. apply (get_None_notin N.eqb neq) in E. auto.
  - destruct (get N.eqb k m) as [i|] eqn:E; [|congruence]. apply (get_In N.eqb neq) in E. apply in_map_iff. exists (k, i). auto.
Qed.
Lemma put_keys k k' i (m : list (bls * info)) : In k (map fst (put N.eqb k' i m)) -> k = k' \/ In k (map fst m).
Proof.
  rewrite !get_in_dec. destruct (N.eq_dec k k') as [->|Hne]; [auto|]. rewrite (get_put_other N.eqb neq) by auto. auto.
Qed.
Lemma known_nodup local dur n g l : NoDup (map fst (m_known (at_start local dur n g l))).
Proof.
  induction l as [|e l IH] using rev_ind; [constructor|]. unfold at_start in *. rewrite run_snoc.
  pose proof (mstep_dir g (mrun g l (mgr_new local dur n)) e) as D. unfold dirv in D.
  assert (P : forall k i, NoDup (map fst (put N.eqb k i (m_known (mrun g l (mgr_new local dur n)))))) by (intros; apply (NoDup_put N.eqb neq); auto).
  destruct e; pose proof (f_equal fst D) as D1; pose proof (f_equal snd D) as D2; cbn [fst snd] in D1, D2; rewrite D1; auto.
  - apply NoDup_fst_filter. auto.
  - destruct (get _ _ _); auto.
  - destruct (kad_writes _ _ _); auto.
  - destruct (kad_writes _ _ _); auto.
Qed.

(* ---- what the directory holds ---- *)
(* Every key in it was provisioned by the operator, belongs to a tracked committee, or was restored from
   disk since the committees were last announced; no key occurs twice. *)
Theorem C54_contents : forall local dur n g l,
  let m := at_start local dur n g l in
  NoDup (map fst (m_known m)) /\
  forall k, In k (map fst (m_known m)) -> In k (provisioned l) \/ In k (members l) \/ In k (restored l).
Proof.
  intros local dur n g l m. split; [apply known_nodup|]. unfold m. clear m.
  induction l as [|e l IH] using rev_ind; intros k; [intros []|]. unfold at_start in *. rewrite run_snoc.
  pose proof (mstep_dir g (mrun g l (mgr_new local dur n)) e) as D. unfold dirv in D.
  pose proof (slots_members local dur n g l) as SM. pose proof (pinned_provisioned local dur n g l) as PP. unfold at_start in *.
  unfold provisioned, members, restored. rewrite flat_map_app, !fold_left_app. cbn [fold_left flat_map]. fold (provisioned l) (members l) (restored l).
  rewrite in_app_iff, app_nil_r. set (m := mrun g l (mgr_new local dur n)) in *.
  assert (KW : forall k0 i0, kad_writes m k0 i0 = true -> In k0 (members l)).
  { intros k0 i0 H. unfold kad_writes in H. apply andb_true_iff in H. rewrite SM in H. apply memN_In. tauto. }
  intros H. destruct e; pose proof (f_equal fst D) as D1; pose proof (f_equal snd D) as D2; cbn [fst snd] in D1, D2; rewrite D1 in H; cbn [In]; try (destruct (IH k H) as [A|[A|A]]; tauto).
  - apply put_keys in H. destruct H as [->|H]; [tauto|destruct (IH k H) as [A|[A|A]]; tauto].
  - apply in_map_iff in H. destruct H as (x & <- & Hx). apply filter_In in Hx. destruct Hx as [Hx Hf].
    apply orb_true_iff in Hf. rewrite !orb_true_iff, !memN_In, PP in Hf. rewrite !in_app_iff. tauto.
  - apply put_keys in H. destruct H as [->|H]; [tauto|destruct (IH k H) as [A|[A|A]]; tauto].
  - apply put_keys in H. destruct H as [->|H]; [tauto|destruct (IH k H) as [A|[A|A]]; tauto].
  - destruct (get _ _ _); [destruct (IH k H) as [A|[A|A]]; tauto|]. apply put_keys in H. destruct H as [->|H]; [tauto|destruct (IH k H) as [A|[A|A]]; tauto].
  - destruct (kad_writes m k0 i) eqn:E; [|destruct (IH k H) as [A|[A|A]]; tauto].
    apply put_keys in H. destruct H as [->|H]; [pose proof (KW _ _ E); tauto|destruct (IH k H) as [A|[A|A]]; tauto].
  - destruct (kad_writes m k0 i) eqn:E; [|destruct (IH k H) as [A|[A|A]]; tauto].
    apply put_keys in H. destruct H as [->|H]; [pose proof (KW _ _ E); tauto|destruct (IH k H) as [A|[A|A]]; tauto].
Qed.
(* So no remote peer can make it grow: right after the committees are announced, and until records are
   restored, it holds at most the operator's peers and the members. *)
Theorem C54_bounded : forall local dur n g l, restored l = [] ->
  (length (m_known (at_start local dur n g l)) <= length (provisioned l) + length (members l))%nat.
Proof.
  intros local dur n g l Hr. destruct (C54_contents local dur n g l) as [Hn Hc]. rewrite <- (map_length fst), <- app_length.
  apply NoDup_incl_length; [exact Hn|]. intros k Hk. rewrite in_app_iff. destruct (Hc k Hk) as [A|[A|A]]; auto. rewrite Hr in A. destruct A.
Qed.

(* ---- what it never loses ---- *)
Lemma put_has k k' i (m : list (bls * info)) : In k (map fst m) -> In k (map fst (put N.eqb k' i m)).
Proof.
  rewrite !get_in_dec. destruct (N.eq_dec k k') as [->|Hne]; [intros _; rewrite (get_put_same N.eqb neq); intros E; discriminate E|]. rewrite (get_put_other N.eqb neq) by auto. auto.
Qed.
Lemma put_self k i (m : list (bls * info)) : In k (map fst (put N.eqb k i m)).
Proof. rewrite get_in_dec, (get_put_same N.eqb neq). discriminate. Qed.
Lemma step_keeps g m e k : In k (map fst (m_known m)) ->
  (forall now a b d, e = MCommittees now a b d -> In k (m_pinned m) \/ In k (a ++ b ++ d)) -> In k (map fst (m_known (mstep g m e))).
Proof.
  intros H Hc. pose proof (mstep_dir g m e) as D. unfold dirv in D.
  destruct e; pose proof (f_equal fst D) as D1; pose proof (f_equal snd D) as D2; cbn [fst snd] in D1, D2; rewrite D1; auto using put_has.
  - apply in_map_iff in H. destruct H as (x & <- & Hx). apply in_map. apply filter_In. split; auto.
    specialize (Hc _ _ _ _ eq_refl). rewrite !in_app_iff in Hc. rewrite !orb_true_iff, !memN_In. tauto.
  - destruct (get _ _ _); auto using put_has.
  - destruct (kad_writes _ _ _); auto using put_has.
  - destruct (kad_writes _ _ _); auto using put_has.
Qed.
(* A peer the operator provisioned resolves for ever. *)
Theorem C54_operator_peers_resolve : forall local dur n g l k, In k (provisioned l) ->
  auth_to_peer k (at_start local dur n g l) <> None.
Proof.
  intros local dur n g l k Hk. enough (In k (map fst (m_known (at_start local dur n g l)))) as H.
  { apply get_in_dec in H. unfold auth_to_peer. match goal with |- context [get N.eqb k ?x] => destruct (get N.eqb k x) end; [intros E; discriminate E|auto]. }
  revert k Hk. induction l as [|e l IH] using rev_ind; intros k Hk; [destruct Hk|].
  pose proof (pinned_provisioned local dur n g l k) as PP. unfold at_start in *. rewrite run_snoc.
  unfold provisioned in Hk. rewrite flat_map_app, in_app_iff in Hk. fold (provisioned l) in Hk. destruct Hk as [Hk|Hk].
  - apply step_keeps; auto. intros now a b d _. left. apply PP. auto.
  - pose proof (mstep_dir g (mrun g l (mgr_new local dur n)) e) as D. unfold dirv in D.
    destruct e; cbn in Hk; try tauto; destruct Hk as [<-|[]]; pose proof (f_equal fst D) as D1; pose proof (f_equal snd D) as D2; cbn [fst snd] in D1, D2; rewrite D1; auto using put_self.
    destruct (get N.eqb k0 _) eqn:E; [|apply put_self]. apply get_in_dec. congruence.
Qed.
(* A known member resolves for as long as it stays a member: entries do not expire. *)
Theorem C54_members_resolve : forall local dur n g l l2 k,
  auth_to_peer k (at_start local dur n g l) <> None -> stays_member k l2 ->
  auth_to_peer k (at_start local dur n g (l ++ l2)) <> None.
Proof.
  intros local dur n g l l2 k Hk Hs.
  assert (Hk' : In k (map fst (m_known (at_start local dur n g l)))).
  { apply get_in_dec. unfold auth_to_peer in Hk. match type of Hk with context [get N.eqb k ?x] => destruct (get N.eqb k x) end; [intros E; discriminate E|auto]. }
  enough (In k (map fst (m_known (at_start local dur n g (l ++ l2))))) as H.
  { apply get_in_dec in H. unfold auth_to_peer. match goal with |- context [get N.eqb k ?x] => destruct (get N.eqb k x) end; [intros E; discriminate E|auto]. }
  unfold at_start, mrun in *. rewrite fold_left_app. clear Hk. revert Hk' Hs.
  generalize (fold_left (mstep g) l (mgr_new local dur n)). induction l2 as [|e l2 IH]; intros m Hk Hs; cbn [fold_left]; auto.
  apply IH; [|intros now a b d Hin; eapply Hs; right; eauto]. apply step_keeps; auto. intros now a b d ->. right. eapply Hs. left. reflexivity.
Qed.

(* ---- what a kad record does ---- *)
(* The advertised endpoint as it is stored: dropped when it is malformed. *)
Definition checked_rpc (g : mcfg) (i : info) : option N :=
  match i_rpc i with Some r => if g_rpc_ok g r then Some r else None | None => None end.
Lemma clean_eq g i : clean g i = mkInfo (i_key i) (i_addrs i) (i_ts i) (checked_rpc g i).
Proof. unfold clean, checked_rpc. destruct i as [k a t [r|]]; cbn; auto. destruct (g_rpc_ok g r); auto. Qed.
Lemma forgive_idx c now s k : Inv false false s -> idx (forgive c now s k) = idx s.
Proof.
  intros HI. unfold forgive. destruct (rec_of (Confirmed k) s) as [r0|] eqn:Hr; auto. destruct (p_net r0) as [p|] eqn:Hp; auto.
  rewrite (ensure_eq false false) by auto.
  assert (Hi : identity_for s p = Confirmed k) by (apply (id_back false false s (Confirmed k) r0); auto).
  rewrite (made_id c now p s r0) by (rewrite Hi; auto).
  pose proof (us_frame false false c now p NUnbanned s HI) as [F _].
  set (st := p_status _). set (s2 := match st with Disconnecting true | Banned _ => _ | _ => s end).
  assert (E : idx s2 = idx s) by (unfold s2; destruct st as [| [|]| | | |]; auto).
  destruct (rec_of (Confirmed k) s2); exact E.
Qed.
Lemma cache_known_idx g now k i m : Inv false false (m_store m) -> idx_of (i_key i) (m_store (cache_known g now k i m)) = Some k.
Proof.
  intros HI. rewrite cache_known_store. cbn [run fold_left step]. set (s1 := upsert _ _ _ _ _ _).
  assert (H1 : Inv false false s1) by (apply upsert_inv; auto).
  assert (E : idx (membership (g_store g) now k s1) = idx s1) by (unfold membership; destruct (in_slots s1 k); [apply forgive_idx; auto|reflexivity]).
  unfold idx_of. rewrite E. unfold s1, upsert.
  destruct (if ident_eqb _ _ then _ else _) as [t o]. match goal with |- context [let '(r, s3) := ?x in _] => destruct x as [r s3] end.
  cbn. rewrite N.eqb_refl. reflexivity.
Qed.
(* A record for a member, newer than what is known or for an operator's peer, is what the key resolves to
   from then on, in both directions; its malformed endpoint is dropped; nobody else's entry changes. *)
Theorem C54_member_record_cached : forall local dur n g l now k i source,
  let m := at_start local dur n g l in
  In k (members l) ->
  (In k (provisioned l) \/ forall old, get N.eqb k (m_known m) = Some old -> i_ts old < i_ts i) ->
  forall e, e = MKad now k i \/ e = MSelfAdv now source k i ->
  let m' := mstep g m e in
  get N.eqb k (m_known m') = Some (mkInfo (i_key i) (i_addrs i) (i_ts i) (checked_rpc g i)) /\
  auth_to_peer k m' = Some (i_key i, i_addrs i) /\ idx_of (i_key i) (m_store m') = Some k /\
  forall k', k' <> k -> get N.eqb k' (m_known m') = get N.eqb k' (m_known m).
Proof.
  intros local dur n g l now k i source m Hm Hn e He m'.
  assert (W : kad_writes m k i = true).
  { unfold kad_writes, m. rewrite slots_members. rewrite (proj2 (memN_In k (members l)) Hm). cbn [andb]. apply negb_true_iff. unfold stale.
    destruct Hn as [Hn|Hn].
    - apply (pinned_provisioned local dur n g) in Hn. apply memN_In in Hn. rewrite Hn. reflexivity.
    - apply andb_false_iff. right. fold m. destruct (get N.eqb k (m_known m)) as [old|] eqn:E; auto. specialize (Hn old eq_refl). apply N.leb_gt. exact Hn. }
  assert (E' : m_known m' = put N.eqb k (clean g i) (m_known m)).
  { pose proof (mstep_dir g m e) as D. unfold dirv in D. fold m' in D. destruct He as [-> | ->]; pose proof (f_equal fst D) as D1; pose proof (f_equal snd D) as D2; cbn [fst snd] in D1, D2; rewrite D1, W; reflexivity. }
  assert (G : get N.eqb k (m_known m') = Some (mkInfo (i_key i) (i_addrs i) (i_ts i) (checked_rpc g i))).
  { rewrite E', (get_put_same N.eqb neq), clean_eq. reflexivity. }
  split; [exact G|]. split; [unfold auth_to_peer; rewrite G; reflexivity|]. split.
  - assert (HI : Inv false false (m_store m)) by apply mgr_inv.
    assert (Em : m' = cache_known g now k i m).
    { unfold kad_writes in W. apply andb_true_iff in W. destruct W as [W1 W2]. apply negb_true_iff in W2. unfold m'.
      destruct He as [-> | ->]; cbn [mstep]; [unfold add_discovered|unfold add_self_advertised]; rewrite W1, W2; reflexivity. }
    rewrite Em. apply cache_known_idx; auto.
  - intros k' Hne. rewrite E', (get_put_other N.eqb neq) by auto. reflexivity.
Qed.
(* A record for a key in no tracked committee leaves no trace, unless its sender advertises its own
   network key; then only the peer store learns the identity.  A member's record that is not newer leaves
   no trace either. *)
Theorem C54_other_records_dropped : forall local dur n g l now k i source,
  let m := at_start local dur n g l in
  (~ In k (members l) ->
     mstep g m (MKad now k i) = m /\
     (source <> i_key i -> mstep g m (MSelfAdv now source k i) = m) /\
     (source = i_key i -> mstep g m (MSelfAdv now source k i) =
        with_store (upsert (g_store g) now k (i_key i) (i_addrs i) (m_store m)) m)) /\
  (In k (members l) -> ~ In k (provisioned l) ->
     (exists old, get N.eqb k (m_known m) = Some old /\ i_ts i <= i_ts old) ->
     mstep g m (MKad now k i) = m /\ mstep g m (MSelfAdv now source k i) = m).
Proof.
  intros local dur n g l now k i source m. split.
  - intros Hm. assert (W : in_slots (m_store m) k = false) by (unfold m; rewrite slots_members; apply memN_nIn; auto).
    cbn [mstep]. unfold add_discovered, add_self_advertised. rewrite W. cbn [negb]. split; [reflexivity|]. split.
    + intros Hs. apply N.eqb_neq in Hs. rewrite Hs. reflexivity.
    + intros ->. rewrite N.eqb_refl. reflexivity.
  - intros Hm Hp (old & Ho & Ht). assert (W : in_slots (m_store m) k = true) by (unfold m; rewrite slots_members; apply memN_In; auto).
    assert (S : stale m k i = true).
    { unfold stale. rewrite Ho. apply andb_true_iff. split; [|apply N.leb_le; auto]. apply negb_true_iff, memN_nIn. intros H. apply Hp. apply (pinned_provisioned local dur n g). exact H. }
    cbn [mstep]. unfold add_discovered, add_self_advertised. rewrite W, S. cbn [negb]. auto.
Qed.
(* Records received from the network never take an entry back in time, except an operator's. *)
Theorem C54_timestamps_forward : forall local dur n g l l2 k i i',
  ~ In k (provisioned (l ++ l2)) -> stays_member k l2 -> (forall e, In e l2 -> ~ local_write k e) ->
  get N.eqb k (m_known (at_start local dur n g l)) = Some i ->
  get N.eqb k (m_known (at_start local dur n g (l ++ l2))) = Some i' ->
  i_ts i <= i_ts i'.
Proof.
  intros local dur n g l l2 k i i' Hp Hs Hw Hi.
  revert i'. induction l2 as [|e l2 IH] using rev_ind; intros i' Hi'.
  - rewrite app_nil_r in Hi'. assert (i' = i) by congruence. subst. lia.
  - rewrite app_assoc in *. unfold at_start in Hi'. rewrite run_snoc in Hi'.
    assert (Hp2 : ~ In k (provisioned (l ++ l2))) by (intros H; apply Hp; unfold provisioned in *; rewrite flat_map_app, in_app_iff; auto).
    assert (Hs2 : stays_member k l2) by (intros now a b d Hin; eapply Hs; apply in_app_iff; left; eauto).
    assert (Hw2 : forall x, In x l2 -> ~ local_write k x) by (intros x Hx; apply Hw; apply in_app_iff; auto).
    specialize (IH Hp2 Hs2 Hw2). fold (at_start local dur n g (l ++ l2)) in Hi'. set (m := at_start local dur n g (l ++ l2)) in *.
    assert (He : ~ local_write k e) by (apply Hw; apply in_app_iff; right; left; auto).
    pose proof (mstep_dir g m e) as D. unfold dirv in D.
    assert (P : forall k0 i0, k0 <> k -> get N.eqb k (put N.eqb k0 i0 (m_known m)) = Some i' -> i_ts i <= i_ts i').
    { intros k0 i0 Hne H. rewrite (get_put_other N.eqb neq) in H by auto. auto. }
    assert (KP : forall k0 i0, get N.eqb k (if kad_writes m k0 i0 then put N.eqb k0 (clean g i0) (m_known m) else m_known m) = Some i' -> i_ts i <= i_ts i').
    { intros k0 i0 H. destruct (kad_writes m k0 i0) eqn:W; [|auto]. destruct (N.eq_dec k0 k) as [->|Hne]; [|eapply P; eauto].
      rewrite (get_put_same N.eqb neq) in H. injection H as <-. rewrite clean_eq. cbn [i_ts].
      unfold kad_writes in W. apply andb_true_iff in W. destruct W as [_ W]. apply negb_true_iff in W. unfold stale in W.
      assert (Hk : auth_to_peer k m <> None).
      { unfold m. apply C54_members_resolve; auto. unfold auth_to_peer. rewrite Hi. discriminate. }
      unfold auth_to_peer in Hk. destruct (get N.eqb k (m_known m)) as [old|] eqn:Eo; [|congruence]. specialize (IH old eq_refl).
      apply andb_false_iff in W. destruct W as [W|W].
      - exfalso. apply negb_false_iff, memN_In in W. unfold m in W. apply (pinned_provisioned local dur n g) in W. auto.
      - apply N.leb_gt in W. lia. }
    destruct e; cbn [local_write] in He; pose proof (f_equal fst D) as D1; pose proof (f_equal snd D) as D2; cbn [fst snd] in D1, D2; rewrite D1 in Hi'; auto; try (eapply P; eauto; fail); try (eapply KP; eauto; fail).
    + (* filtered *) apply IH. apply (get_In N.eqb neq) in Hi'. apply filter_In in Hi'. apply (In_get N.eqb neq); [apply known_nodup|tauto].
    + destruct (get N.eqb k0 (m_known m)); [auto|eapply P; eauto].
Qed.
(* Every advertised endpoint in it is well formed, if the operator's trusted peers come without one or with a well-formed one. *)
Theorem C54_endpoints_valid : forall local dur n g l,
  (forall now k i r, In (MTrusted now k i) l -> i_rpc i = Some r -> g_rpc_ok g r = true) ->
  forall k i r, get N.eqb k (m_known (at_start local dur n g l)) = Some i -> i_rpc i = Some r -> g_rpc_ok g r = true.
Proof.
  intros local dur n g l Ht. induction l as [|e l IH] using rev_ind; intros k i r Hi Hr; [discriminate Hi|].
  assert (Ht2 : forall now k i r, In (MTrusted now k i) l -> i_rpc i = Some r -> g_rpc_ok g r = true) by (intros now0 k0 i0 r0 H; apply (Ht now0 k0 i0 r0); apply in_app_iff; auto).
  specialize (IH Ht2). unfold at_start in *. rewrite run_snoc in Hi. set (m := mrun g l (mgr_new local dur n)) in *.
  pose proof (mstep_dir g m e) as D. unfold dirv in D.
  assert (C : forall i0, i_rpc (clean g i0) = Some r -> g_rpc_ok g r = true).
  { intros i0 H. rewrite clean_eq in H. cbn in H. unfold checked_rpc in H. destruct (i_rpc i0) as [x|]; [|discriminate H]. destruct (g_rpc_ok g x) eqn:E; congruence. }
  assert (P : forall k0 i0, get N.eqb k (put N.eqb k0 (clean g i0) (m_known m)) = Some i -> g_rpc_ok g r = true).
  { intros k0 i0 H. destruct (N.eq_dec k0 k) as [->|Hne]; [rewrite (get_put_same N.eqb neq) in H; injection H as <-; eapply C; eauto|].
    rewrite (get_put_other N.eqb neq) in H by auto. eapply IH; eauto. }
  destruct e; pose proof (f_equal fst D) as D1; pose proof (f_equal snd D) as D2; cbn [fst snd] in D1, D2; rewrite D1 in Hi; eauto.
  - destruct (N.eq_dec k0 k) as [->|Hne].
    + rewrite (get_put_same N.eqb neq) in Hi. injection Hi as <-. apply (Ht now k i0 r); [apply in_app_iff; right; left; auto|auto].
    + rewrite (get_put_other N.eqb neq) in Hi by auto. eapply IH; eauto.
  - apply (get_In N.eqb neq) in Hi. apply filter_In in Hi. apply (IH k i r); auto. apply (In_get N.eqb neq); [apply (known_nodup local dur n g l)|tauto].
  - destruct (get N.eqb k0 (m_known m)); eauto.
  - destruct (kad_writes _ _ _); eauto.
  - destruct (kad_writes _ _ _); eauto.
Qed.
(* The RPC endpoints of the current committee: exactly the members known with an endpoint, in committee
   order, and exactly the members not known at all are searched for. *)
Theorem C54_committee_endpoints : forall local dur n g l,
  let m := at_start local dur n g l in
  let '(m', out) := committee_rpcs m in
  (forall k r, In (k, r) out <-> In k (current_of l) /\ exists i, get N.eqb k (m_known m) = Some i /\ i_rpc i = Some r) /\
  m_events m' = m_events m ++
    (let missing := filter (fun k => match get N.eqb k (m_known m) with Some _ => false | None => true end) (current_of l) in
     if (0 <? length missing)%nat then [PMissing missing] else []).
Proof.
  intros local dur n g l m. unfold committee_rpcs. assert (CM : current (m_store m) = current_of l) by apply current_members. rewrite !CM.
  assert (K : m_known (chase (current_of l) m) = m_known m) by (pose proof (dv_chase (current_of l) m) as D; unfold dirv in D; pose proof (f_equal fst D) as D1; pose proof (f_equal snd D) as D2; cbn [fst snd] in D1, D2; exact D1).
  split.
  - intros k r. rewrite in_flat_map. unfold get_rpc. rewrite K. split.
    + intros (x & Hx & Hin). destruct (get N.eqb x (m_known m)) as [i|] eqn:E; [|destruct Hin]. destruct (i_rpc i) as [r'|] eqn:Er; [|destruct Hin].
      destruct Hin as [Hin|[]]. injection Hin as Ha Hb. subst x r'. split; [exact Hx|]. exists i. auto.
    + intros (Hk & i & E & Er). exists k. split; auto. rewrite E, Er. left. reflexivity.
  - unfold chase. generalize (filter (fun k => match get N.eqb k (m_known m) with Some _ => false | None => true end) (current_of l)). intros [|x t]; cbn [length Nat.ltb Nat.leb m_events push with_events]; [rewrite app_nil_r|]; reflexivity.
Qed.

(* ---- an example, and what does not hold ---- *)
(* A request to find members reports, once and last, exactly those of them that do not resolve, in the order asked, and
   changes nothing else. *)
Theorem C54_only_missing_searched : forall g m l,
  exists missing, m_events (mstep g m (MFind l)) = m_events m ++ [PMissing missing] /\
    (forall k, In k missing <-> In k l /\ auth_to_peer k m = None) /\ (NoDup l -> NoDup missing) /\
    m_known (mstep g m (MFind l)) = m_known m /\ m_store (mstep g m (MFind l)) = m_store m.
Proof.
  intros g m l. eexists. cbn [mstep find_authorities push]. split; [reflexivity|]. split; [|split; [apply NoDup_filter|auto]].
  intros k. rewrite filter_In. unfold auth_to_peer. destruct (get N.eqb k (m_known m)); intuition congruence.
Qed.
Definition dcfg54 : mcfg := mkMCfg (mkCfg 1000 0 100000 (-100000) (-20000) (-50000) 1800
    (fun d v => Z.quot v (2 ^ (Z.of_N d / 300)))%Z 15 500 500
    (fun id => match id with Confirmed k => 2 * k | Unident p => 2 * p + 1 end)) 30 39 45 (fun r => r <? 100).
Definition hist54 : list mev :=
  [MBootstrap 1 60 (mkInfo 16 [] 1 None); MRestored 1 70 (mkInfo 17 [] 5 (Some 7)); MRestored 1 71 (mkInfo 18 [] 5 (Some 107));
   MCommittees 2 [50] [51; 70] [52]; MKad 3 51 (mkInfo 11 [] 9 (Some 3)); MKad 4 99 (mkInfo 12 [] 9 None);
   MSelfAdv 5 13 98 (mkInfo 13 [] 9 None); MSelfAdv 6 14 52 (mkInfo 14 [] 9 (Some 200)); MKad 7 51 (mkInfo 15 [] 8 None)].
(* the bootstrap peer, the restored member and the discovered members are there; the restored outsider,
   the records of outsiders and the older record are not *)
Theorem C54_example : let m := at_start 1 600 100 dcfg54 hist54 in
  map fst (m_known m) = [52; 51; 70; 60] /\ auth_to_peer 51 m = Some (11, []) /\ idx_of 13 (m_store m) = Some 98 /\
  get_rpc 52 m = None /\ get_rpc 51 m = Some 3 /\ snd (committee_rpcs m) = [(51, 3); (70, 7)] /\
  restored hist54 = [] /\ members hist54 = [50; 51; 70; 52] /\ provisioned hist54 = [60] /\
  stays_member 51 [MKad 7 51 (mkInfo 15 [] 8 None)].
Proof. vm_compute. repeat split. intros now a b d [H|[]]. discriminate H. Qed.
(* Refuted: "kad-sourced updates can never regress a fresher entry" (manager.rs 945-951).  For a peer the
   operator provisioned the timestamp is not compared: replaying its old signed record undoes the newer. *)
Theorem C54_refuted_never_regress :
  let l := [MCommittees 1 [] [50] []; MBootstrap 2 50 (mkInfo 10 [] 3 None); MKad 3 50 (mkInfo 11 [] 90 (Some 5))] in
  let m := at_start 1 600 100 dcfg54 l in let m' := mstep dcfg54 m (MKad 4 50 (mkInfo 10 [] 20 None)) in
  auth_to_peer 50 m = Some (11, []) /\ auth_to_peer 50 m' = Some (10, []) /\ get_rpc 50 m' = None.
Proof. vm_compute. repeat split. Qed.
