(* Choosing, sorting and pruning. *)
From Coq Require Import Permutation Sorting.Sorted.
From Verif Require Import Util AMap PeersModel PeersSpec PeersProofs PeersProofs2 PeersProofs3 PeersProofs4 PeersProofs6 CacheModel CacheSpec CacheProofs MgrModel MgrSpec MgrProofs MgrProofs2 MgrProofs3.
Local Open Scope nat_scope.
Local Notation ieq := ident_eqb_eq.

(* ---------- choose ---------- *)
Lemma nth_split_perm {A} i (l : list A) x : nth_error l i = Some x -> Permutation l (x :: firstn i l ++ skipn (S i) l).
Proof.
  revert l. induction i as [|i IH]; intros [|y l] H; try discriminate H.
  - cbn in H. injection H as ->. cbn. apply Permutation_refl.
  - cbn in H. specialize (IH l H). cbn [firstn skipn app]. rewrite IH at 1. apply perm_swap.
Qed.
Lemma choose_sub {A} n : forall is (l : list A), exists r, Permutation l (choose is n l ++ r) /\ length (choose is n l) = Nat.min n (length l).
Proof.
  induction n as [|n IH]; intros is l; cbn [choose].
  - exists l. split; [apply Permutation_refl|reflexivity].
  - destruct l as [|y l]; [exists []; split; [apply Permutation_refl|reflexivity]|].
    set (i := hd 0 is mod length (y :: l)).
    assert (Hi : i < length (y :: l)) by (apply Nat.mod_upper_bound; discriminate).
    destruct (nth_error (y :: l) i) as [x|] eqn:E; [|apply nth_error_None in E; lia].
    pose proof (nth_split_perm i (y :: l) x E) as P. set (t := firstn i (y :: l) ++ skipn (S i) (y :: l)) in *.
    destruct (IH (tl is) t) as (r & Pr & L). exists r. cbn [app length]. split.
    + rewrite P. apply perm_skip. exact Pr.
    + rewrite L. pose proof (Permutation_length P) as PL. cbn [length] in PL |- *. lia.
Qed.
Lemma choose_perm {A} is (l : list A) : Permutation l (choose is (length l) l).
Proof.
  destruct (choose_sub (length l) is l) as (r & P & L). rewrite Nat.min_id in L.
  assert (r = []) by (pose proof (Permutation_length P) as H; rewrite app_length, L in H; destruct r; auto; cbn in H; lia).
  subst r. rewrite app_nil_r in P. exact P.
Qed.
Lemma choose_in {A} is n (l : list A) x : In x (choose is n l) -> In x l.
Proof. destruct (choose_sub n is l) as (r & P & _). intros H. eapply Permutation_in; [symmetry; exact P|]. apply in_app_iff. auto. Qed.
Lemma choose_nodup {A B} (f : A -> B) is n (l : list A) : NoDup (map f l) -> NoDup (map f (choose is n l)).
Proof.
  destruct (choose_sub n is l) as (r & P & _). intros H. apply (Permutation_map f) in P. rewrite map_app in P.
  eapply Permutation_NoDup in H; [|exact P]. revert H. generalize (map f r). generalize (map f (choose is n l)). clear.
  intros a b. induction a as [|x a IH]; intros H; [constructor|]. inversion H as [|? ? H1 H2]; subst. constructor; auto. intros Hx. apply H1. apply in_app_iff. auto.
Qed.
(* every selection in every order can come out *)
Lemma choose_any {A} n (l : list A) : forall pre r, Permutation l (pre ++ r) -> length pre = n -> exists is, choose is n l = pre.
Proof.
  revert l. induction n as [|n IH]; intros l pre r P L.
  - destruct pre; [|discriminate L]. exists []. reflexivity.
  - destruct pre as [|x pre]; [discriminate L|]. injection L as L. cbn [app] in P.
    assert (Hx : In x l) by (eapply Permutation_in; [symmetry; exact P|left; auto]).
    apply In_nth_error in Hx. destruct Hx as [i E]. pose proof (nth_split_perm i l x E) as P2.
    assert (P3 : Permutation (firstn i l ++ skipn (S i) l) (pre ++ r)) by (apply (Permutation_cons_inv (a := x)); rewrite <- P2; exact P).
    destruct (IH _ pre r P3 L) as [is Hs]. exists (i :: is). cbn [choose].
    assert (Hi : i < length l) by (apply nth_error_Some; congruence).
    destruct l as [|y l]; [cbn in Hi; lia|]. cbn [hd tl]. rewrite Nat.mod_small by exact Hi. rewrite E. f_equal. exact Hs.
Qed.

(* ---------- sorting ---------- *)
Definition le_key {A} (key : A -> Z * bool) (a b : A) : Prop := key_le (key a) (key b) = true.
Lemma key_total a b : key_le a b = false -> key_le b a = true.
Proof.
  unfold key_le. destruct a as [x p], b as [y q]. cbn [fst snd]. rewrite orb_false_iff, andb_false_iff.
  intros [H1 H2]. apply Z.ltb_ge in H1. destruct (Z.eqb_spec x y) as [->|Hne].
  - destruct H2 as [H2|H2]; [discriminate|]. rewrite Z.eqb_refl. destruct p, q; cbn in *; try discriminate. apply orb_true_r.
  - apply orb_true_iff. left. apply Z.ltb_lt. lia.
Qed.
Lemma key_trans a b c : key_le a b = true -> key_le b c = true -> key_le a c = true.
Proof.
  unfold key_le. destruct a as [x p], b as [y q], c as [z r]. cbn [fst snd].
  rewrite !orb_true_iff, !andb_true_iff, !Z.ltb_lt, !Z.eqb_eq, !orb_true_iff, !negb_true_iff.
  intros [H|[H1 H2]] [G|[G1 G2]]; [left; lia|left; lia|left; lia|]. right. split; [lia|]. destruct p, q, r; intuition congruence.
Qed.
Lemma insert_perm {A} (key : A -> Z * bool) x l : Permutation (x :: l) (insert_by key x l).
Proof.
  induction l as [|y l IH]; cbn [insert_by]; [apply Permutation_refl|]. destruct (key_le _ _); [apply Permutation_refl|].
  rewrite <- IH. apply perm_swap.
Qed.
Lemma sort_perm {A} (key : A -> Z * bool) l : Permutation l (sort_by key l).
Proof. unfold sort_by. induction l as [|x l IH]; cbn [fold_right]; [apply Permutation_refl|]. rewrite <- insert_perm. apply perm_skip. exact IH. Qed.
Lemma insert_sorted {A} (key : A -> Z * bool) x l : StronglySorted (le_key key) l -> StronglySorted (le_key key) (insert_by key x l).
Proof.
  induction l as [|y l IH]; intros H; cbn [insert_by]; [repeat constructor|]. inversion H as [|? ? H1 H2]; subst.
  destruct (key_le (key x) (key y)) eqn:E.
  - constructor; [exact H|]. constructor; [exact E|]. rewrite Forall_forall in *. intros z Hz. eapply key_trans; [exact E|]. apply H2. exact Hz.
  - constructor; [apply IH; auto|]. rewrite Forall_forall in *. intros z Hz.
    eapply Permutation_in in Hz; [|symmetry; apply insert_perm]. destruct Hz as [<-|Hz]; [apply key_total; exact E|apply H2; exact Hz].
Qed.
Lemma sort_sorted {A} (key : A -> Z * bool) l : StronglySorted (le_key key) (sort_by key l).
Proof. unfold sort_by. induction l as [|x l IH]; cbn [fold_right]; [constructor|]. apply insert_sorted. exact IH. Qed.
Lemma sorted_filter {A} (R : A -> A -> Prop) f l : StronglySorted R l -> StronglySorted R (filter f l).
Proof.
  induction l as [|x l IH]; intros H; cbn [filter]; [constructor|]. inversion H as [|? ? H1 H2]; subst. destruct (f x); auto.
  constructor; auto. rewrite Forall_forall in *. intros z Hz. apply filter_In in Hz. apply H2. tauto.
Qed.
Lemma sorted_split {A} (R : A -> A -> Prop) n l a b : StronglySorted R l -> In a (firstn n l) -> In b (skipn n l) -> R a b.
Proof.
  revert l. induction n as [|n IH]; intros l H Ha Hb; [destruct Ha|]. destruct l as [|x l]; [destruct Ha|].
  inversion H as [|? ? H1 H2]; subst. cbn in Ha, Hb. destruct Ha as [<-|Ha].
  - rewrite Forall_forall in H2. apply H2. rewrite <- (firstn_skipn n l). apply in_app_iff. auto.
  - apply (IH l); auto.
Qed.

(* ---------- connected peers ---------- *)
Lemma conn_in s p r : Inv false false s -> In (p, r) (connected_list s) <-> get_peer s p = Some r /\ is_conn (p_status r) = true.
Proof.
  intros HI. unfold connected_list. rewrite in_flat_map. split.
  - intros ([id x] & Hin & H). cbn [fst snd] in H. destruct (is_conn (p_status x)) eqn:E; [|destruct H].
    destruct (peer_id_for id x) as [q|] eqn:Ep; [|destruct H]. destruct H as [H|[]]. injection H as -> ->.
    apply (peers_rec _ _ _ _ _ HI) in Hin. split; auto. unfold get_peer. rewrite (id_back _ _ _ _ _ _ HI Hin Ep). exact Hin.
  - intros [Hr Hc]. exists (identity_for s p, r). split; [apply (peers_rec _ _ _ _ _ HI); exact Hr|]. cbn [fst snd]. rewrite Hc.
    assert (Ep : peer_id_for (identity_for s p) r = Some p).
    { destruct (identity_for s p) as [k|q] eqn:E.
      - destruct (ident_conf _ _ _ _ _ HI E) as (x & Hx & Hp). unfold get_peer in Hr. rewrite E in Hr. cbn. congruence.
      - unfold identity_for in E. destruct (idx_of p s); cbn; congruence. }
    rewrite Ep. left. reflexivity.
Qed.
Lemma conn_nodup s : Inv false false s -> NoDup (map fst (connected_list s)).
Proof.
  intros HI. unfold connected_list.
  assert (G : forall l, NoDup (map fst l) -> (forall e, In e l -> In e (peers s)) ->
    NoDup (map fst (flat_map (fun e => if is_conn (p_status (snd e)) then match peer_id_for (fst e) (snd e) with Some p => [(p, snd e)] | None => [] end else []) l))).
  { induction l as [|[id r] l IH]; intros Hn Hl; cbn [flat_map]; [constructor|]. rewrite map_app. inversion Hn as [|? ? N1 N2]; subst.
    assert (IH' := IH N2 (fun e He => Hl e (or_intror He))). cbn [fst snd]. destruct (is_conn (p_status r)); [|exact IH'].
    destruct (peer_id_for id r) as [p|] eqn:Ep; [|exact IH']. cbn [map app]. constructor; [|exact IH'].
    intros Hin. apply in_map_iff in Hin. destruct Hin as ([q x] & Eq & Hin). cbn in Eq. subst q.
    apply in_flat_map in Hin. destruct Hin as ([id2 r2] & Hin2 & H2). cbn [fst snd] in H2. destruct (is_conn (p_status r2)); [|destruct H2].
    destruct (peer_id_for id2 r2) as [q|] eqn:Ep2; [|destruct H2]. destruct H2 as [H2|[]]. injection H2 as -> ->.
    assert (Hr : rec_of id s = Some r) by (apply (peers_rec _ _ _ _ _ HI); apply Hl; left; auto).
    assert (Hr2 : rec_of id2 s = Some x) by (apply (peers_rec _ _ _ _ _ HI); apply Hl; right; auto).
    assert (id = id2) by (rewrite <- (id_back _ _ _ _ _ _ HI Hr Ep); apply (id_back _ _ _ _ _ _ HI Hr2 Ep2)). subst id2.
    apply N1. cbn. apply in_map_iff. exists (id, x). auto. }
  apply G; [apply (proj1 HI)|auto].
Qed.
Lemma conn_pids s : connected_pids s = map fst (connected_list s).
Proof.
  unfold connected_pids, pids_where, connected_list. induction (peers s) as [|[id r] l IH]; cbn [flat_map]; [reflexivity|].
  rewrite map_app, <- IH. f_equal. cbn [fst snd]. destruct (is_conn _); auto. destruct (peer_id_for id r); auto.
Qed.

(* ---------- disconnecting one connected peer ---------- *)
Lemma disc_one c now p s r : Inv false false s -> get_peer s p = Some r -> is_conn (p_status r) = true ->
  snd (update_status c now p (NDisconnecting false) s) = ADisconnectPX /\
  get_peer (fst (update_status c now p (NDisconnecting false) s)) p = Some (with_status (Disconnecting false) r) /\
  forall q, q <> p -> get_peer (fst (update_status c now p (NDisconnecting false) s)) q = get_peer s q.
Proof.
  intros HI Hr Hc. pose proof (us_frame false false c now p (NDisconnecting false) s HI) as (Fi & _ & _ & _ & Fr).
  assert (G : forall q, q <> p -> get_peer (fst (update_status c now p (NDisconnecting false) s)) q = get_peer s q).
  { intros q Hq. unfold get_peer. rewrite (ident_for_idx _ _ _ Fi). destruct (eqb_dec ident_eqb ieq (identity_for s q) (identity_for s p)) as [E|E]; [|apply Fr; exact E].
    exfalso. unfold get_peer in Hr. destruct (identity_for s p) as [k|x] eqn:Ep.
    - destruct (ident_conf _ _ _ _ _ HI E) as (y & Hy & Hn). destruct (ident_conf _ _ _ _ _ HI Ep) as (z & Hz & Hm). congruence.
    - unfold identity_for in *. destruct (idx_of q s); [discriminate E|]. destruct (idx_of p s); [discriminate Ep|]. congruence. }
  unfold get_peer in *. rewrite (ident_for_idx _ _ _ Fi). unfold update_status in *. rewrite (ensure_eq false false) in * by auto.
  rewrite (made_id c now p s r Hr) in *. unfold made_rec in *. rewrite Hr in *. unfold to_disconnecting, set_status in *. rewrite Hr in *.
  destruct (p_status r); try discriminate Hc. cbn [fst snd]. rewrite rec_put_same. auto.
Qed.
Lemma disc_run c now l : forall s, Inv false false s -> NoDup l ->
  (forall p, In p l -> exists r, get_peer s p = Some r /\ is_conn (p_status r) = true) ->
  let s' := run c (map (EDisconnect now) l) s in
  (forall q, ~ In q l -> get_peer s' q = get_peer s q) /\
  (forall q r, In q l -> get_peer s q = Some r -> get_peer s' q = Some (with_status (Disconnecting false) r)) /\ Inv false false s'.
Proof.
  induction l as [|p l IH]; intros s HI Hn Hc; cbn [map run fold_left].
  - split; [auto|]. split; [intros q r []|exact HI].
  - inversion Hn as [|? ? N1 N2]; subst. destruct (Hc p (or_introl eq_refl)) as (r & Hr & Hcr).
    destruct (disc_one c now p s r HI Hr Hcr) as (_ & Hp & Hq).
    set (s1 := fst (update_status c now p (NDisconnecting false) s)) in *.
    assert (HI1 : Inv false false s1).
    { apply update_status_inv; auto. intros b Hb h; discriminate h. }
    destruct (IH s1 HI1 N2) as (A & B & C).
    + intros q Hin. destruct (Hc q (or_intror Hin)) as (x & Hx & Hcx). exists x. split; auto. rewrite Hq; auto. intros ->. auto.
    + change (run c (map (EDisconnect now) l) (step c s (EDisconnect now p))) with (run c (map (EDisconnect now) l) s1).
      split; [|split; [|exact C]].
      * intros q Hin. rewrite A by (intros H; apply Hin; right; auto). apply Hq. intros ->. apply Hin. left. auto.
      * intros q x [<-|Hin] Hx; [rewrite A by auto; congruence|]. apply B; auto. rewrite Hq; auto. intros ->. auto.
Qed.
