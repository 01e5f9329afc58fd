(* The heartbeat's store maintenance leaves connections alone; discovery table and dial queue. *)
From Coq Require Import Permutation Sorting.Sorted.
From Verif Require Import Util AMap PeersModel PeersSpec PeersProofs PeersProofs2 PeersProofs3 PeersProofs4 PeersProofs6 CacheModel CacheSpec CacheProofs MgrModel MgrSpec MgrProofs MgrProofs2 MgrProofs3 MgrProofs4 MgrProofs6 MgrProofs7 MgrProofs8.
Local Open Scope nat_scope.
Local Notation ieq := ident_eqb_eq.
Local Notation neq := N.eqb_eq.

Definition conn (s : store) (p : pid) : bool := match get_peer s p with Some r => is_conn (p_status r) | None => false end.
Definition connid (s : store) (id : ident) : bool := match rec_of id s with Some r => is_conn (p_status r) | None => false end.
Lemma us_conn c now q ns s : Inv false false s -> ns = NUnbanned \/ ns = NDisconnected /\ connid s (identity_for s q) = false ->
  forall id, connid (fst (update_status c now q ns s)) id = connid s id.
Proof.
  intros HI Hns id. pose proof (us_frame false false c now q ns s HI) as (_ & _ & _ & _ & Fr).
  destruct (eqb_dec ident_eqb ieq id (identity_for s q)) as [->|Hne]; [|unfold connid; rewrite Fr by exact Hne; reflexivity].
  unfold update_status. rewrite (ensure_eq false false) by auto.
  pose proof (made_rec_of c now q s) as Hm. pose proof (made_ident c now q s) as Hi.
  assert (E0 : connid s (identity_for s q) = is_conn (p_status (made_rec c now q s))).
  { unfold connid, made_rec. destruct (rec_of (identity_for s q) s); reflexivity. }
  rewrite E0. set (r := made_rec c now q s) in *. set (s1 := made c now q s) in *. set (id := identity_for s q) in *.
  destruct Hns as [->|[-> Hc]].
  - unfold to_unbanned. rewrite Hi, Hm. unfold connid.
    destruct (p_status r) as [? ?|[]|?|?|?|] eqn:Es; cbn [fst].
    all: try (rewrite Hm, Es; reflexivity).
    all: try (rewrite rec_put_same; reflexivity).
    match goal with |- context [rec_of id (set_disc _ (remove_banned _ ?x))] => change (rec_of id (set_disc _ (remove_banned _ x))) with (rec_of id x) end.
    rewrite rec_put_same. reflexivity.
  - rewrite E0 in Hc. rewrite Hc.
    assert (Ss : forall st x, rec_of id (set_status q st (set_disc x s1)) = Some (with_status st r)).
    { intros st x. unfold set_status. change (identity_for (set_disc x s1) q) with (identity_for s1 q). rewrite Hi.
      change (rec_of id (set_disc x s1)) with (rec_of id s1). rewrite Hm. apply rec_put_same. }
    unfold to_disconnected, to_disconnected_banned. rewrite Hi, Hm.
    unfold connid. destruct (p_status r) as [? ?|[]|?|?|?|] eqn:Es; cbn [fst].
    all: try (rewrite Hm, Es; reflexivity).
    all: try (rewrite Ss; reflexivity).
    all: try discriminate Hc.
    match goal with |- context [rec_of id (add_banned _ ?x)] => change (rec_of id (add_banned _ x)) with (rec_of id x) end.
    rewrite rec_put_same. reflexivity.
Qed.
Lemma statuses_conn c now ns l : (ns = NUnbanned \/ ns = NDisconnected) -> forall s, Inv false false s ->
  (ns = NDisconnected -> forall q, In q l -> connid s (identity_for s q) = false) ->
  forall id, connid (status_all c now ns l s) id = connid s id.
Proof.
  intros Hns. induction l as [|q l IH]; intros s HI Hc id; cbn; [reflexivity|].
  assert (H1 : forall id, connid (fst (update_status c now q ns s)) id = connid s id).
  { apply us_conn; auto. destruct Hns as [->| ->]; [left; reflexivity|right; split; [reflexivity|apply Hc; [reflexivity|left; reflexivity]]]. }
  change (connid (status_all c now ns l (fst (update_status c now q ns s))) id = connid s id). rewrite IH; [apply H1| |].
  - apply update_status_inv; auto. intros b Hb h; discriminate h.
  - intros E x Hx. rewrite H1. rewrite (ident_for_idx _ s) by (apply (us_frame false false c now q ns s HI)). apply Hc; auto. right. exact Hx.
Qed.
Lemma hb_connid c now s id : Inv false false s -> connid (heartbeat c now s) id = connid s id.
Proof.
  intros HI. unfold heartbeat. set (s1 := status_all c now NDisconnected _ s).
  assert (HI1 : Inv false false s1) by (apply status_all_inv; auto; congruence).
  rewrite statuses_conn; [|auto|apply beat_inv; auto|congruence].
  assert (E : connid (beat c now s1) id = connid s1 id).
  { unfold connid. rewrite beat_rec. destruct (rec_of id s1) as [r|]; auto. unfold peer_heartbeat. destruct (exempt s1 id r); reflexivity. }
  rewrite E. unfold s1. apply statuses_conn; auto. intros _ q Hq. unfold timed_out in Hq. apply in_flat_map in Hq. destruct Hq as ([j x] & Hin & Hq). cbn in Hq.
  destruct (p_status x) eqn:Ex; try destruct Hq. destruct (_ <? _)%N; [|destruct Hq].
  destruct (peer_id_for j x) as [q'|] eqn:Eq; [|destruct Hq]. destruct Hq as [<-|[]].
  apply (peers_rec false false) in Hin; auto. rewrite (id_back false false s j x q' HI Hin Eq). unfold connid. rewrite Hin, Ex. reflexivity.
Qed.
Lemma hb_idx c now s : Inv false false s -> idx (heartbeat c now s) = idx s /\ slots (heartbeat c now s) = slots s.
Proof.
  intros HI. unfold heartbeat. set (s1 := status_all c now NDisconnected _ s).
  assert (HI1 : Inv false false s1) by (apply status_all_inv; auto; congruence).
  destruct (status_all_frame false false c now NDisconnected (timed_out c now s) ltac:(congruence) s HI) as [A1 [A2 [A3 [A4 _]]]].
  destruct (status_all_frame false false c now NUnbanned (unbanned_now c now s1) ltac:(congruence) (beat c now s1) (beat_inv _ _ c now _ HI1)) as [B1 [B2 [B3 [B4 _]]]].
  fold s1 in A1, A2, A3, A4. unfold slots. rewrite B1, B2, B3, B4. cbn. rewrite <- A1, <- A2, <- A3, <- A4. split; reflexivity.
Qed.
Lemma hb_conn c now s p : Inv false false s -> conn (heartbeat c now s) p = conn s p.
Proof.
  intros HI. unfold conn, get_peer. rewrite (ident_for_idx _ s) by (apply hb_idx; exact HI). exact (hb_connid c now s (identity_for s p) HI).
Qed.
Lemma hb_important c now s p : Inv false false s -> conn s p = true ->
  is_validator (heartbeat c now s) p || allowlisted (heartbeat c now s) p = is_validator s p || allowlisted s p.
Proof.
  intros HI Hc. destruct (hb_idx c now s HI) as [E1 E2]. f_equal.
  - unfold is_validator, idx_of. rewrite E1. destruct (get N.eqb p (idx s)) as [k|]; auto. apply in_slots_eq. exact E2.
  - unfold conn in Hc. unfold allowlisted, get_peer in *. rewrite (ident_for_idx _ s) by exact E1.
    destruct (rec_of (identity_for s p) s) as [r|] eqn:Er; [|discriminate Hc].
    destruct (hb_rec false false c now s _ r HI Er) as (r' & -> & _ & -> & _). reflexivity.
Qed.

(* the manager's heartbeat *)
Definition maintained (g : mcfg) (now : N) (m : mgr) : mgr :=
  apply_actions now (snd (heartbeat_a (g_store g) now (m_store m))) (with_store (fst (heartbeat_a (g_store g) now (m_store m))) m).
Lemma maintained_store g now m : m_store (maintained g now m) = heartbeat (g_store g) now (m_store m).
Proof. unfold maintained. rewrite apply_actions_store. cbn. apply heartbeat_a_fst. Qed.
Lemma hb_split g now rt is0 is1 is2 m : mgr_heartbeat g now rt is0 is1 is2 m =
  discovery_beat g is1 is2 (unban_expired now (prune_connected g now rt is0 (maintained g now m))).
Proof. unfold mgr_heartbeat, maintained. destruct (heartbeat_a _ _ _); reflexivity. Qed.
Lemma hb_store g now rt is0 is1 is2 m : m_store (mgr_heartbeat g now rt is0 is1 is2 m) = m_store (prune_connected g now rt is0 (maintained g now m)).
Proof. rewrite hb_split, discovery_beat_store, unban_expired_store. reflexivity. Qed.
Lemma conn_set_same s s' : Inv false false s -> Inv false false s' -> (forall p, conn s' p = conn s p) ->
  Permutation (connected_pids s) (connected_pids s').
Proof.
  intros H H' E. apply NoDup_Permutation; [rewrite conn_pids; apply conn_nodup; auto|rewrite conn_pids; apply conn_nodup; auto|].
  intros p. rewrite !conn_pid_in by auto. specialize (E p). unfold conn in E.
  split; intros (r & Hr & Hc); rewrite Hr in E; rewrite Hc in E.
  - destruct (get_peer s' p) as [x|]; [exists x; auto|discriminate E].
  - destruct (get_peer s p) as [x|]; [exists x; auto|discriminate E].
Qed.

(* ---------- discovery table and dial queue ---------- *)
Definition disq (m : mgr) := (m_disco m, m_dials m).
Lemma dq_temp_ban now p m : disq (temp_ban now p m) = disq m.
Proof. unfold temp_ban. destruct (cache_insert now p (m_temp m)) as [[c [b [o|]]]|]; reflexivity. Qed.
Lemma dq_temp_unban p m : disq (temp_unban p m) = disq m.
Proof. unfold temp_unban. destruct (cache_remove p (m_temp m)) as [[c b]|]; reflexivity. Qed.
Lemma dq_action now p a m : disq (apply_action now p a m) = disq m.
Proof.
  destruct a; cbn [apply_action]; try reflexivity.
  all: match goal with |- disq ?x = _ => change (disq x) with (disq (temp_ban now p m)) end; apply dq_temp_ban.
Qed.
Lemma dq_actions now l : forall m, disq (apply_actions now l m) = disq m.
Proof. induction l as [|e l IH]; intros m; cbn; [reflexivity|]. change (disq (apply_actions now l (apply_action now (fst e) (snd e) m)) = disq m). rewrite IH. apply dq_action. Qed.
Lemma dq_disconnect g now p px m : disq (disconnect g now p px m) = disq m.
Proof. unfold disconnect. destruct (update_status _ _ _ _ _) as [s a]. rewrite dq_action. reflexivity. Qed.
Lemma dq_prune_loop g now l : forall n m, disq (prune_loop g now n l m) = disq m.
Proof. induction l as [|p l IH]; intros [|n] m; cbn; auto. rewrite IH. apply dq_disconnect. Qed.
Lemma dq_prune g now rt is m : disq (prune_connected g now rt is m) = disq m.
Proof. unfold prune_connected. destruct (_ =? 0); auto. apply dq_prune_loop. Qed.
Lemma dq_unbans l : forall m, disq (fold_left (fun m p => push (PUnbanned p) m) l m) = disq m.
Proof. induction l as [|p l IH]; intros m; cbn; auto. rewrite IH. reflexivity. Qed.
Lemma dq_expire now m : disq (unban_expired now m) = disq m.
Proof. unfold unban_expired. destruct (cache_beat now (m_temp m)) as [t out]. rewrite dq_unbans. reflexivity. Qed.
Lemma dq_maintained g now m : disq (maintained g now m) = disq m.
Proof. unfold maintained. rewrite dq_actions. reflexivity. Qed.
Lemma dq_disconnected g now p m : disq (on_disconnected g now p m) = disq m.
Proof.
  unfold on_disconnected. destruct (register_disconnected_a _ _ _ _) as [[s a] pr].
  match goal with |- disq (with_events _ ?x) = _ => change (disq x = disq m) end. destruct a; try reflexivity. rewrite dq_action. reflexivity.
Qed.
Lemma dq_cache_known g now k i m : disq (cache_known g now k i m) = disq m.
Proof.
  unfold cache_known. match goal with |- context [let '(_, _) := ?x in _] => destruct x as [s a] end. rewrite dq_actions. reflexivity.
Qed.
Lemma dq_forgive_temp l : forall m, disq (forgive_temp l m) = disq m.
Proof.
  induction l as [|k l IH]; intros m; [reflexivity|]. unfold forgive_temp in *. cbn [fold_left]. rewrite IH. destruct (auth_to_peer k m) as [[p a]|]; [apply dq_temp_unban|reflexivity].
Qed.
Lemma dq_chase l m : disq (chase l m) = disq m.
Proof. unfold chase. match goal with |- context [match ?x with [] => _ | _ => _ end] => destruct x end; reflexivity. Qed.
Definition dial_add (p : pid) (a : list maddr) (m : mgr) : list (pid * list maddr) :=
  if is_local m p then [] else match get_peer (m_store m) p with
    | Some r => match p_status r with Banned _ | Dialing _ | Connected _ _ => [] | _ => [(p, a)] end
    | None => [(p, a)] end.
Lemma dq_dial p a m : disq (dial_peer p a m) = (m_disco m, m_dials m ++ dial_add p a m).
Proof.
  unfold dial_peer, dial_add. destruct (is_local m p); [rewrite app_nil_r; reflexivity|]. destruct (get_peer (m_store m) p) as [r|]; [|reflexivity].
  destruct (p_status r); rewrite ?app_nil_r; reflexivity.
Qed.
Lemma local_dial p a m : m_local (dial_peer p a m) = m_local m.
Proof. unfold dial_peer. destruct (is_local m p); auto. destruct (get_peer (m_store m) p) as [r|]; auto. destruct (p_status r); auto. Qed.

Lemma mstep_local g m e : m_local (mstep g m e) = m_local m.
Proof.
  assert (TB : forall now p x, m_local (temp_ban now p x) = m_local x).
  { intros now p x. unfold temp_ban. destruct (cache_insert now p (m_temp x)) as [[c [b [o|]]]|]; reflexivity. }
  assert (TU : forall p x, m_local (temp_unban p x) = m_local x).
  { intros p x. unfold temp_unban. destruct (cache_remove p (m_temp x)) as [[c b]|]; reflexivity. }
  assert (AA : forall now p a x, m_local (apply_action now p a x) = m_local x).
  { intros now p a x. destruct a; cbn [apply_action]; try reflexivity.
    all: match goal with |- m_local ?y = _ => change (m_local y) with (m_local (temp_ban now p x)) end; apply TB. }
  assert (AS : forall now l x, m_local (apply_actions now l x) = m_local x).
  { intros now l. induction l as [|y l IH]; intros x; [reflexivity|]. unfold apply_actions in *. cbn [fold_left]. rewrite IH. apply AA. }
  assert (DI : forall now p px x, m_local (disconnect g now p px x) = m_local x).
  { intros now p px x. unfold disconnect. destruct (update_status _ _ _ _ _) as [s a]. rewrite AA. reflexivity. }
  assert (PL : forall now l n x, m_local (prune_loop g now n l x) = m_local x).
  { intros now l. induction l as [|p l IH]; intros [|n] x; cbn; auto. rewrite IH. apply DI. }
  assert (DS : forall l x, m_local (fold_left (fun m (e : pid * list maddr) => dial_peer (fst e) (snd e) m) l x) = m_local x).
  { intros l. induction l as [|p l IH]; intros x; cbn; auto. rewrite IH. apply local_dial. }
  assert (OD : forall now p x, m_local (on_disconnected g now p x) = m_local x).
  { intros now p x. unfold on_disconnected. destruct (register_disconnected_a _ _ _ _) as [[s a] pr].
    match goal with |- m_local (with_events _ ?y) = _ => change (m_local y = m_local x) end. destruct a; try reflexivity. rewrite AA. reflexivity. }
  assert (CH : forall l x, m_local (chase l x) = m_local x).
  { intros l x. unfold chase. match goal with |- context [match ?y with [] => _ | _ => _ end] => destruct y end; reflexivity. }
  assert (FT : forall l x, m_local (forgive_temp l x) = m_local x).
  { intros l. induction l as [|k l IH]; intros x; [reflexivity|]. unfold forgive_temp in *. cbn [fold_left]. rewrite IH. destruct (auth_to_peer k x) as [[p a]|]; auto. }
  assert (CK : forall now k i x, m_local (cache_known g now k i x) = m_local x).
  { intros now k i x. unfold cache_known. match goal with |- context [let '(_, _) := ?y in _] => destruct y as [s a] end. rewrite AS. reflexivity. }
  assert (UE : forall now x, m_local (unban_expired now x) = m_local x).
  { intros now x. unfold unban_expired. destruct (cache_beat now (m_temp x)) as [t out].
    assert (H : forall l y, m_local (fold_left (fun m p => push (PUnbanned p) m) l y) = m_local y) by (induction l as [|p l IH]; intros y; cbn; auto; rewrite IH; reflexivity).
    rewrite H. reflexivity. }
  destruct e; cbn [mstep].
  - unfold add_trusted_and_dial. rewrite local_dial. cbn. rewrite TU. reflexivity.
  - apply local_dial.
  - unfold penalize. destruct (is_local m p); auto. destruct (process_penalty _ _ _ _ _) as [s a]. rewrite AA. reflexivity.
  - apply DI.
  - unfold pending_out. destruct op as [p|]; auto. destruct (is_local m p); auto. destruct (dialing_now m p); auto. destruct (mgr_can_dial g m p); auto.
  - destruct (established g m p a incoming); auto. unfold on_established.
    assert (R : m_local (register_connection g now p a incoming m) = m_local m) by (unfold register_connection; destruct (peer_banned _ _ _); reflexivity).
    destruct (_ && _); [rewrite DI; exact R|exact R].
  - unfold on_closed. destruct (0 <? remaining); auto. rewrite OD. destruct (conn_or_disconnecting m p); reflexivity.
  - unfold on_dial_failure. destruct op as [p|]; auto. destruct (is_connected m p); auto.
  - unfold on_exchange. destruct (_ <? _); reflexivity.
  - reflexivity.
  - unfold on_committees. match goal with |- context [let '(_, _) := ?y in _] => destruct y as [s x] end. unfold prune_known. cbn [m_local with_known]. rewrite AS. cbn [m_local with_store]. rewrite !FT, !CH. reflexivity.
  - unfold on_prepare. match goal with |- context [let '(_, _) := ?y in _] => destruct y as [s x] end. rewrite AS. cbn [m_local with_store]. apply FT.
  - unfold add_known. rewrite CK. reflexivity.
  - apply CK.
  - unfold add_bootstrap. match goal with |- context [match ?y with Some _ => _ | None => _ end] => destruct y end; [reflexivity|]. rewrite CK. reflexivity.
  - unfold add_discovered. destruct (negb _); auto. destruct (stale _ _ _); auto.
  - unfold add_self_advertised. destruct (in_slots _ _); [destruct (stale _ _ _); auto|]. destruct (N.eqb _ _); auto.
  - reflexivity.
  - unfold committee_rpcs. cbn [fst]. apply CH.
  - rewrite hb_split. unfold discovery_beat. set (x := unban_expired _ _).
    assert (R : m_local x = m_local m).
    { unfold x. rewrite UE. unfold prune_connected. destruct (_ =? 0); [|rewrite PL]; unfold maintained; rewrite AS; reflexivity. }
    destruct (max_discovery g <? _); [|destruct (_ <? max_discovery g)]; cbn [m_local with_disco push with_events]; rewrite DS; exact R.
  - unfold poll. destruct (m_events m) as [|ev t]; [destruct (m_dials m) as [|[p a] t]|]; reflexivity.
  - reflexivity.
Qed.

Lemma disco_dials l : forall m, m_disco (fold_left (fun m (e : pid * list maddr) => dial_peer (fst e) (snd e) m) l m) = m_disco m.
Proof. induction l as [|e l IH]; intros m; cbn; auto. rewrite IH. exact (f_equal fst (dq_dial (fst e) (snd e) m)). Qed.

(* a table obtained by the heartbeat from table d *)
Lemma del_all_sub (f : (pid * list maddr) -> pid) l : forall (d : list (pid * list maddr)) e, In e (fold_left (fun d x => del N.eqb (f x) d) l d) -> In e d /\ ~ In (fst e) (map f l).
Proof.
  induction l as [|x l IH]; intros d e H; cbn in *; [tauto|]. apply IH in H. destruct H as [H Hn]. unfold del in H. apply filter_In in H. destruct H as [H1 H2].
  split; auto. intros [E|E]; auto. rewrite E in H2. cbn in H2. rewrite N.eqb_refl in H2. discriminate H2.
Qed.

Lemma del_all_keep (f : (pid * list maddr) -> pid) l : forall (d : list (pid * list maddr)) e, In e d -> ~ In (fst e) (map f l) -> In e (fold_left (fun d x => del N.eqb (f x) d) l d).
Proof.
  induction l as [|x l IH]; intros d e H Hn; cbn in *; [tauto|]. apply IH; [|tauto]. apply (in_del N.eqb neq). split; auto.
Qed.
Lemma del_all_nodup {X} (f : X -> pid) l : forall (d : list (pid * list maddr)), NoDup (map fst d) -> NoDup (map fst (fold_left (fun d x => del N.eqb (f x) d) l d)).
Proof. induction l as [|x l IH]; intros d H; cbn; auto. apply IH. apply NoDup_del; auto. Qed.
Lemma del_keys_sub l : forall (d : list (pid * list maddr)) e, In e (fold_left (fun d p => del N.eqb p d) l d) -> In e d.
Proof. induction l as [|x l IH]; intros d e H; cbn in *; auto. apply IH in H. apply (in_del N.eqb neq) in H. tauto. Qed.
Lemma put_all_in l : forall (d : list (pid * list maddr)) e, In e (fold_left (fun d x => put N.eqb (fst x) (snd x) d) l d) -> In e d \/ In e l.
Proof.
  induction l as [|x l IH]; intros d e H; cbn in *; auto. apply IH in H. destruct H as [H|H]; auto. destruct H as [<-|H]; [right; left; destruct x; auto|].
  apply (in_del N.eqb neq) in H. tauto.
Qed.
Lemma put_all_nodup l : forall (d : list (pid * list maddr)), NoDup (map fst d) -> NoDup (map fst (fold_left (fun d x => put N.eqb (fst x) (snd x) d) l d)).
Proof. induction l as [|x l IH]; intros d H; cbn; auto. apply IH. apply (NoDup_put N.eqb neq). auto. Qed.
Lemma del_len k (d : list (pid * list maddr)) : length (del N.eqb k d) <= length d.
Proof. unfold del. induction d as [|x d IH]; cbn [filter length]; [lia|]. destruct (negb _); cbn [length]; lia. Qed.
Lemma put_all_len l : forall (d : list (pid * list maddr)), length (fold_left (fun d x => put N.eqb (fst x) (snd x) d) l d) <= length d + length l.
Proof. induction l as [|x l IH]; intros d; cbn [fold_left length]; [rewrite Nat.add_0_r; apply Nat.le_refl|]. specialize (IH (put N.eqb (fst x) (snd x) d)).
  assert (H : length (put N.eqb (fst x) (snd x) d) <= S (length d)) by (unfold put; cbn [length]; apply le_n_S; exact (del_len (fst x) d)).
  eapply Nat.le_trans; [exact IH|]. rewrite <- Nat.add_succ_comm. apply Nat.add_le_mono_r. exact H. Qed.
Lemma del_one_len k (d : list (pid * list maddr)) : NoDup (map fst d) -> In k (map fst d) -> S (length (del N.eqb k d)) = length d.
Proof.
  unfold del. induction d as [|[x v] d IH]; intros Hn Hk; [destruct Hk|]. inversion Hn as [|? ? N1 N2]; subst. cbn. destruct Hk as [E|Hk].
  - cbn in E. subst x. rewrite N.eqb_refl. cbn. f_equal. clear IH Hn N2. induction d as [|[y w] d IH]; cbn in *; auto.
    destruct (N.eqb_spec k y) as [->|Hne]; [exfalso; apply N1; left; reflexivity|]. cbn. f_equal. apply IH. tauto.
  - destruct (N.eqb_spec k x) as [->|Hne]; [contradiction|]. cbn. f_equal. apply IH; auto.
Qed.
Lemma del_keys_len l : forall (d : list (pid * list maddr)), NoDup (map fst d) -> NoDup l -> (forall k, In k l -> In k (map fst d)) ->
  length (fold_left (fun d p => del N.eqb p d) l d) + length l = length d.
Proof.
  induction l as [|k l IH]; intros d Hn Hl Hs; cbn [fold_left length]; [apply Nat.add_0_r|]. inversion Hl as [|? ? N1 N2]; subst.
  pose proof (del_one_len k d Hn (Hs k (or_introl eq_refl))) as E. rewrite <- E.
  unfold pid in *. rewrite <- (IH (del N.eqb k d)); [apply Nat.add_succ_r|apply NoDup_del; auto|auto|].
  intros x Hx. pose proof (Hs x (or_intror Hx)) as Hi. apply in_map_iff in Hi. destruct Hi as (e & Ee & He). apply in_map_iff. exists e. split; [exact Ee|]. apply (in_del N.eqb neq). split; [exact He|]. intros Ek. apply N1. rewrite <- Ek, Ee. exact Hx.
Qed.

Definition sane (local : pid) (e : pid * list maddr) : Prop := fst e <> local /\ exists a x, snd e = [a] /\ a_ip a = Some x.
Lemma eligible_sane m p a : eligible m p a = true -> sane (m_local m) (p, a).
Proof.
  unfold eligible, is_local, valid_ips, max_addrs. rewrite !andb_true_iff, negb_true_iff, N.eqb_neq, Nat.leb_le. intros [[[H1 H2] [H3 _]] _].
  split; [cbn; auto|]. cbn [snd]. destruct a as [|x [|y a]]; cbn in *; try discriminate; [|lia]. exists x. destruct (a_ip x) as [i|]; [exists i; auto|discriminate].
Qed.
Record DQ (local : pid) (m : mgr) : Prop := mkDQ {
  dq_nd : NoDup (map fst (m_disco m)); dq_sane : forall e, In e (m_disco m) -> sane local e;
  dq_dials : forall e, In e (m_dials m) -> fst e <> local }.
Lemma DQ_same local m m' : disq m' = disq m -> DQ local m -> DQ local m'.
Proof. intros E [A B C]. pose proof (f_equal fst E) as E1. pose proof (f_equal snd E) as E2. cbn in E1, E2. constructor; rewrite ?E1, ?E2; auto. Qed.
Lemma DQ_dial p a m : DQ (m_local m) m -> DQ (m_local m) (dial_peer p a m).
Proof.
  intros [A B C]. pose proof (f_equal fst (dq_dial p a m)) as E1. pose proof (f_equal snd (dq_dial p a m)) as E2. cbn in E1, E2.
  constructor; rewrite ?E1, ?E2; auto. intros e He. apply in_app_iff in He. destruct He as [He|He]; auto.
  unfold dial_add, is_local in He. destruct (N.eqb_spec (m_local m) p) as [->|Hne]; [destruct He|].
  assert (e = (p, a)) as ->; [|cbn; congruence].
  destruct (get_peer (m_store m) p) as [r|]; [destruct (p_status r)|]; cbn in He; try tauto; destruct He as [<-|[]]; reflexivity.
Qed.
Lemma DQ_dials l : forall m, DQ (m_local m) m -> DQ (m_local m) (fold_left (fun m (e : pid * list maddr) => dial_peer (fst e) (snd e) m) l m).
Proof. induction l as [|e l IH]; intros m H; cbn; auto. rewrite <- (local_dial (fst e) (snd e) m). apply IH. rewrite local_dial. apply DQ_dial; auto. Qed.
Lemma DQ_disco local m d : DQ local m -> NoDup (map fst d) -> (forall e, In e d -> sane local e) -> DQ local (with_disco d m).
Proof. intros [A B C] H1 H2. constructor; auto. Qed.
Lemma still_sub m e : In e (still_eligible m) <-> In e (m_disco m) /\ eligible m (fst e) (snd e) = true.
Proof. unfold still_eligible. apply filter_In. Qed.
Lemma rest_sub g is1 m e : In e (not_dialed (to_dial g is1 m) (still_eligible m)) -> In e (still_eligible m) /\ ~ In (fst e) (map fst (to_dial g is1 m)).
Proof. unfold not_dialed. intros H. apply (del_all_sub fst) in H. exact H. Qed.
Lemma rest_nodup g is1 m : NoDup (map fst (m_disco m)) -> NoDup (map fst (not_dialed (to_dial g is1 m) (still_eligible m))).
Proof. intros H. unfold not_dialed. apply (del_all_nodup fst). unfold still_eligible. apply NoDup_fst_filter. exact H. Qed.
Lemma beat_disco g is1 is2 m : m_disco (discovery_beat g is1 is2 m) =
  let d1 := not_dialed (to_dial g is1 m) (still_eligible m) in
  if max_discovery g <? length d1 then drop_excess g is2 d1 else d1.
Proof. unfold discovery_beat. cbn zeta. destruct (max_discovery g <? _); [reflexivity|]. destruct (_ <? max_discovery g); reflexivity. Qed.
Lemma beat_disco_sub g is1 is2 m e : In e (m_disco (discovery_beat g is1 is2 m)) ->
  In e (still_eligible m) /\ ~ In (fst e) (map fst (to_dial g is1 m)).
Proof.
  rewrite beat_disco. cbn zeta. destruct (max_discovery g <? _); [|apply rest_sub]. intros H. unfold drop_excess in H. apply del_keys_sub in H. apply rest_sub; exact H.
Qed.
Lemma beat_disco_len g is1 is2 m : NoDup (map fst (m_disco m)) ->
  NoDup (map fst (m_disco (discovery_beat g is1 is2 m))) /\ length (m_disco (discovery_beat g is1 is2 m)) <= max_discovery g.
Proof.
  intros H. rewrite beat_disco. cbn zeta. pose proof (rest_nodup g is1 m H) as Hn. set (d1 := not_dialed _ _) in *.
  destruct (Nat.ltb_spec (max_discovery g) (length d1)) as [L|L]; [|split; auto]. unfold drop_excess. split; [apply (del_all_nodup (fun p => p)); auto|].
  set (out := choose is2 _ (map fst d1)). assert (Lo : length out = length d1 - max_discovery g).
  { destruct (choose_sub (length d1 - max_discovery g) is2 (map fst d1)) as (r & _ & E). unfold out. rewrite E, map_length. lia. }
  assert (No : NoDup out) by (unfold out; rewrite <- (map_id (choose _ _ _)); apply choose_nodup; rewrite map_id; exact Hn).
  pose proof (del_keys_len out d1 Hn No (fun k Hk => choose_in _ _ _ _ Hk)) as E. unfold pid in *. lia.
Qed.
Lemma beat_dials g is1 is2 m : m_dials (discovery_beat g is1 is2 m) = m_dials m ++ to_dial g is1 m.
Proof.
  assert (G : forall l x, (forall e, In e l -> eligible x (fst e) (snd e) = true) ->
     m_dials (fold_left (fun m (e : pid * list maddr) => dial_peer (fst e) (snd e) m) l x) = m_dials x ++ l).
  { induction l as [|e l IH]; intros x H; cbn; [rewrite app_nil_r; reflexivity|].
    assert (He := H e (or_introl eq_refl)). unfold eligible in He. rewrite !andb_true_iff in He. destruct He as [[[E1 _] _] E2].
    assert (Ed : m_dials (dial_peer (fst e) (snd e) x) = m_dials x ++ [e]).
    { pose proof (f_equal snd (dq_dial (fst e) (snd e) x)) as D. cbn in D. rewrite D. f_equal. unfold dial_add. apply negb_true_iff in E1. rewrite E1.
      unfold can_dial in E2. destruct e as [p a]. cbn [fst snd] in *. destruct (get_peer (m_store x) p) as [r|]; [|reflexivity]. unfold peer_can_dial in E2.
      destruct (p_status r); try discriminate E2; reflexivity. }
    rewrite IH, Ed, <- app_assoc; [reflexivity|]. intros y Hy. specialize (H y (or_intror Hy)). unfold eligible, is_local in *. rewrite local_dial, dial_store. exact H. }
  unfold discovery_beat. cbn zeta. set (x := fold_left _ _ _).
  assert (E : m_dials x = m_dials m ++ to_dial g is1 m).
  { unfold x. rewrite G; [reflexivity|]. intros e He. change (eligible m (fst e) (snd e) = true). unfold to_dial in He. destruct (0 <? _); [|destruct He]. apply choose_in, still_sub in He. tauto. }
  destruct (max_discovery g <? _); [exact E|]. destruct (_ <? max_discovery g); exact E.
Qed.
Lemma to_dial_sub g is m e : In e (to_dial g is m) -> In e (still_eligible m).
Proof. unfold to_dial. destruct (0 <? _); [|intros []]. apply choose_in. Qed.
Lemma to_dial_len g is m : length (to_dial g is m) = Nat.min (g_target g - length (conn_or_dial_pids (m_store m))) (length (still_eligible m)).
Proof.
  unfold to_dial. cbn zeta. destruct (Nat.ltb_spec 0 (g_target g - length (conn_or_dial_pids (m_store m)))) as [L|L].
  - destruct (choose_sub (g_target g - length (conn_or_dial_pids (m_store m))) is (still_eligible m)) as (r & _ & E). exact E.
  - cbn. lia.
Qed.
