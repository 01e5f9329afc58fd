(* Limits: pruning connections, the discovery table, the dial queue. *)
From Coq Require Import Permutation Sorting.Sorted.
From Verif Require Import Util AMap PeersModel PeersSpec PeersProofs PeersProofs2 PeersProofs3 PeersProofs4 PeersProofs6 CacheModel CacheSpec CacheProofs MgrModel MgrSpec MgrProofs MgrProofs2 MgrProofs3 MgrProofs4 MgrProofs7.
Local Open Scope nat_scope.
Local Notation ieq := ident_eqb_eq.
Local Notation neq := N.eqb_eq.

(* ---------- counts ---------- *)
Lemma conn_pid_in s p : Inv false false s -> In p (connected_pids s) <-> exists r, get_peer s p = Some r /\ is_conn (p_status r) = true.
Proof.
  intros HI. rewrite conn_pids, in_map_iff. split.
  - intros ([q r] & E & H). cbn in E. subst q. exists r. apply (conn_in s p r HI). exact H.
  - intros (r & H). exists (p, r). split; auto. apply (conn_in s p r HI). exact H.
Qed.
Lemma is_connected_in m p : Inv false false (m_store m) -> is_connected m p = true <-> In p (connected_pids (m_store m)).
Proof.
  intros HI. rewrite (conn_pid_in _ _ HI). unfold is_connected. destruct (get_peer (m_store m) p) as [r|].
  - split; [intros H; exists r; auto|intros (x & E & H); congruence].
  - split; [discriminate|intros (x & E & _); discriminate E].
Qed.
Lemma prunable_important s p r : get_peer s p = Some r -> prunable s (p, r) = negb (is_validator s p || allowlisted s p).
Proof. intros H. unfold prunable, allowlisted. rewrite H. cbn [fst snd]. rewrite negb_orb. reflexivity. Qed.
Lemma perm_filter_len {A} (f : A -> bool) l l' : Permutation l l' -> length (filter f l) = length (filter f l').
Proof. induction 1; cbn; auto; repeat (destruct (f _); cbn; auto); lia. Qed.
Lemma filter_map_len {A B} (f : A -> B) (p : B -> bool) (q : A -> bool) l : (forall x, In x l -> p (f x) = q x) ->
  length (filter p (map f l)) = length (filter q l).
Proof. induction l as [|x l IH]; intros H; cbn; auto. rewrite (H x) by (left; auto). destruct (q x); cbn; rewrite IH; auto; intros; apply H; right; auto. Qed.

(* ---------- pruning ---------- *)
Definition victims (g : mcfg) (rt : pid -> bool) (is : list nat) (m : mgr) : list (pid * peer) :=
  let l := by_score rt is (m_store m) in
  firstn (length l - g_target g) (filter (prunable (m_store m)) l).
Lemma by_score_perm rt is s : Permutation (connected_list s) (by_score rt is s).
Proof. unfold by_score. rewrite <- sort_perm. apply choose_perm. Qed.
Lemma prune_store g now rt is m : m_store (prune_connected g now rt is m) =
  run (g_store g) (map (EDisconnect now) (map fst (victims g rt is m))) (m_store m).
Proof.
  unfold prune_connected, victims. destruct (Nat.eqb_spec (length (by_score rt is (m_store m)) - g_target g) 0) as [E|E].
  - rewrite E. reflexivity.
  - rewrite prune_loop_store. rewrite firstn_map. reflexivity.
Qed.
Lemma victims_sub g rt is m e : In e (victims g rt is m) -> In e (connected_list (m_store m)) /\ prunable (m_store m) e = true.
Proof.
  intros H. unfold victims in H. assert (H1 : In e (filter (prunable (m_store m)) (by_score rt is (m_store m)))).
  { rewrite <- (firstn_skipn (length (by_score rt is (m_store m)) - g_target g)). apply in_app_iff. auto. }
  apply filter_In in H1. destruct H1 as [H1 H2]. split; auto. eapply Permutation_in; [symmetry; apply by_score_perm|exact H1].
Qed.
Lemma nodup_firstn {A} n (l : list A) : NoDup l -> NoDup (firstn n l).
Proof.
  intros H. rewrite <- (firstn_skipn n l) in H. revert H. generalize (skipn n l). intros b. induction (firstn n l) as [|x a IH]; intros H; [constructor|].
  inversion H as [|? ? H1 H2]; subst. constructor; auto. intros Hx. apply H1. apply in_app_iff. auto.
Qed.
Lemma nodup_map_filter {A B} (f : A -> B) p (l : list A) : NoDup (map f l) -> NoDup (map f (filter p l)).
Proof.
  induction l as [|x l IH]; intros H; cbn; auto. inversion H as [|? ? H1 H2]; subst. destruct (p x); cbn; auto. constructor; auto.
  intros Hx. apply H1. apply in_map_iff in Hx. destruct Hx as (y & Ey & Hy). apply filter_In in Hy. apply in_map_iff. exists y. tauto.
Qed.
Lemma victims_nodup g rt is m : Inv false false (m_store m) -> NoDup (map fst (victims g rt is m)).
Proof.
  intros HI. unfold victims. rewrite <- firstn_map. apply nodup_firstn, nodup_map_filter.
  eapply Permutation_NoDup; [apply Permutation_map, by_score_perm|apply conn_nodup; exact HI].
Qed.
Lemma prune_spec g now rt is m : Inv false false (m_store m) ->
  let m' := prune_connected g now rt is m in
  (forall p r, In (p, r) (victims g rt is m) -> get_peer (m_store m) p = Some r /\ is_conn (p_status r) = true /\
     get_peer (m_store m') p = Some (with_status (Disconnecting false) r)) /\
  (forall p, ~ In p (map fst (victims g rt is m)) -> get_peer (m_store m') p = get_peer (m_store m) p) /\
  Inv false false (m_store m').
Proof.
  intros HI m'. unfold m'. rewrite prune_store.
  assert (Hc : forall p, In p (map fst (victims g rt is m)) -> exists r, get_peer (m_store m) p = Some r /\ is_conn (p_status r) = true).
  { intros p Hp. apply in_map_iff in Hp. destruct Hp as ([q r] & E & H). cbn in E. subst q. apply victims_sub in H. exists r. apply (conn_in _ p r HI). tauto. }
  destruct (disc_run (g_store g) now _ (m_store m) HI (victims_nodup g rt is m HI) Hc) as (A & B & C).
  split; [|split; auto]. intros p r H. pose proof (proj1 (victims_sub _ _ _ _ _ H)) as H1. apply (conn_in _ p r HI) in H1.
  split; [tauto|]. split; [tauto|]. apply B; [apply in_map_iff; exists (p, r); auto|tauto].
Qed.

Lemma prune_len g rt is m : Inv false false (m_store m) ->
  length (victims g rt is m) = Nat.min (length (connected_pids (m_store m)) - g_target g)
    (length (filter (fun p => negb (important m p)) (connected_pids (m_store m)))).
Proof.
  intros HI. unfold victims. rewrite firstn_length. rewrite conn_pids, map_length.
  rewrite (filter_map_len fst (fun p => negb (important m p)) (prunable (m_store m))).
  - rewrite <- (Permutation_length (by_score_perm rt is (m_store m))). f_equal. symmetry. apply perm_filter_len, by_score_perm.
  - intros [p r] H. apply (conn_in _ p r HI) in H. unfold important. rewrite (prunable_important _ p r) by tauto. reflexivity.
Qed.
Lemma prune_order g rt is m a b : In a (victims g rt is m) -> In b (connected_list (m_store m)) -> prunable (m_store m) b = true ->
  ~ In b (victims g rt is m) -> key_le (rank rt a) (rank rt b) = true.
Proof.
  unfold victims. set (l := filter _ _). set (n := _ - _). intros Ha Hb Pb Hn.
  assert (Hl : In b l). { apply filter_In. split; auto. eapply Permutation_in; [apply by_score_perm|exact Hb]. }
  rewrite <- (firstn_skipn n l) in Hl. apply in_app_iff in Hl. destruct Hl as [Hl|Hl]; [contradiction|].
  refine (sorted_split (le_key (rank rt)) n l a b _ Ha Hl). apply sorted_filter. apply sort_sorted.
Qed.

(* what the victims are told, and their temporary ban *)
Lemma in_push e x m : In e (m_events m) -> In e (m_events (push x m)).
Proof. intros H. cbn. apply in_app_iff. auto. Qed.
Definition told (p : pid) (m : mgr) : Prop := exists x, In (PDisconnectX p x) (m_events m).
Lemma act_keeps now q a p x m : In (PDisconnectX p x) (m_events m) -> In (PDisconnectX p x) (m_events (apply_action now q a m)).
Proof.
  intros H. destruct a; cbn [apply_action].
  all: try exact H.
  all: try (apply in_push; exact H).
  all: try (apply in_push, temp_ban_events; exact H).
  unfold process_ban. apply in_push. cbn [m_events with_events]. apply filter_In. split; [apply temp_ban_events; exact H|reflexivity].
Qed.
Lemma told_disconnect g now p m : told p (disconnect g now p true m).
Proof.
  unfold disconnect. exists (peer_exchange (m_store m)). destruct (update_status _ _ _ _ _) as [s a]. apply act_keeps. cbn. apply in_app_iff. right. left. reflexivity.
Qed.
Lemma told_later g now p q m : told p m -> told p (disconnect g now q true m).
Proof.
  intros [x H]. unfold disconnect. exists x. destruct (update_status _ _ _ _ _) as [s a]. apply act_keeps. cbn. apply in_app_iff. left. exact H.
Qed.
Lemma told_loop g now l : forall n m p, told p m \/ In p (firstn n l) -> told p (prune_loop g now n l m).
Proof.
  induction l as [|q l IH]; intros [|n] m p H; cbn [prune_loop firstn] in *; try (destruct H as [H|H]; [exact H|destruct H]).
  apply IH. destruct H as [H|[->|H]]; [left; apply told_later; exact H|left; apply told_disconnect|right; exact H].
Qed.
Lemma disc_bans d n t g now p m r : JX d n anyone t m -> (t <= now)%N -> Inv false false (m_store m) -> get_peer (m_store m) p = Some r ->
  is_conn (p_status r) = true -> UX d n p now (disconnect g now p true m) /\ cache_contains p (m_temp (disconnect g now p true m)) = true.
Proof.
  intros J Ht HI Hr Hc. pose proof (JX_disconnect d n anyone t g now p true m J Ht) as JD.
  assert (E : cache_contains p (m_temp (disconnect g now p true m)) = true).
  { unfold disconnect. destruct (disc_one (g_store g) now p (m_store m) r HI Hr Hc) as (A & _).
    cbn [push with_events m_store]. destruct (update_status _ _ _ _ _) as [s a]. cbn [snd] in A. subst a. cbn [apply_action].
    set (m1 := with_store s _). assert (J1 : JX d n anyone t m1).
    { apply (JX_vis d n anyone t (push (PDisconnectX p (peer_exchange (m_store m))) m)); [reflexivity|]. apply JX_push; [reflexivity|exact J]. }
    destruct (temp_ban_ok d n anyone t now p m1 J1 Ht) as [_ H]. exact H. }
  split; [|exact E]. constructor; [exact JD|left; exact E].
Qed.
Lemma ux_loop d n g now l : forall k m p, JX d n anyone now m -> Inv false false (m_store m) -> NoDup l ->
  (forall q, In q l -> exists r, get_peer (m_store m) q = Some r /\ is_conn (p_status r) = true) ->
  In p (firstn k l) -> UX d n p now (prune_loop g now k l m).
Proof.
  induction l as [|q l IH]; intros [|k] m p J HI Hn Hc Hp; cbn [prune_loop firstn] in *; try contradiction.
  inversion Hn as [|? ? N1 N2]; subst. destruct (Hc q (or_introl eq_refl)) as (r & Hr & Hcr).
  destruct Hp as [->|Hp].
  - apply UX_prune_loop. apply (disc_bans d n now g now p m r); auto. apply N.le_refl.
  - pose proof (disc_one (g_store g) now q (m_store m) r HI Hr Hcr) as (_ & _ & Ho).
    apply IH; auto.
    + apply (JX_disconnect d n anyone now); auto. apply N.le_refl.
    + rewrite disconnect_store. cbn [step]. apply update_status_inv; auto. intros b Hb h; discriminate h.
    + intros x Hx. destruct (Hc x (or_intror Hx)) as (y & Hy & Hcy). exists y. split; auto. rewrite disconnect_store. cbn [step]. rewrite Ho; auto. intros ->. auto.
Qed.
