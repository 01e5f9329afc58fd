(* C52: the bounded, expiring set of temporarily banned peers. *)
From Coq Require Import Sorting.Sorted.
From Verif Require Import Util CacheModel CacheSpec CacheProofs.
Local Open Scope N_scope.

Lemma in_skipn {A} (x : A) n l : In x (skipn n l) -> In x l.
Proof. revert n. induction l as [|a l IH]; intros [|n] H; cbn in *; auto. right. eapply IH; eauto. Qed.

(* No call ever fails an expect(), whatever is called in whatever order on a forward-moving clock, and
   the cache holds exactly the keys the specification says, each with the instant of its last insertion. *)
Theorem C52_exact : forall dur n l, clock_ok l ->
  exists c, crun l (cache_new dur n) = Some c /\
    c_list c = held dur (Nat.max n 1) l /\
    (forall k, cache_contains k c = true <-> exists t, In (k, t) (held dur (Nat.max n 1) l)) /\
    cache_len c = length (held dur (Nat.max n 1) l).
Proof.
  intros dur n l Hk. destruct (run_ok l (cache_new dur n) 0 (ci_new dur n) Hk) as (c & t & E & [A1 A2 A3 A4 A5 A6 A7] & B & C & D & _).
  exists c. cbn in B, C, D. split; [auto|]. split; [exact D|]. split.
  - intros k. unfold held. rewrite <- D. unfold cache_contains. rewrite memN_In, A3, in_map_iff. split.
    + intros ([k' t'] & <- & H). exists t'. exact H.
    + intros (t' & H). exists (k, t'). auto.
  - unfold held. rewrite <- D. unfold cache_len. rewrite <- (map_length fst).
    apply Nat.le_antisymm; apply NoDup_incl_length; auto; intros x Hx; apply A3; auto.
Qed.
Theorem C52_bounded : forall dur n l c, clock_ok l -> crun l (cache_new dur n) = Some c ->
  (cache_len c <= Nat.max n 1)%nat /\ NoDup (map fst (c_list c)) /\ StronglySorted (fun a b => snd a <= snd b) (c_list c).
Proof.
  intros dur n l c Hk E. destruct (run_ok l (cache_new dur n) 0 (ci_new dur n) Hk) as (c' & t & E' & [A1 A2 A3 A4 A5 A6 A7] & B & C & D & _).
  assert (c' = c) by congruence. subst c'. split; [|split; auto].
  cbn in C. rewrite <- C. eapply Nat.le_trans; [|exact A4]. unfold cache_len. rewrite <- (map_length fst (c_list c)).
  apply NoDup_incl_length; auto. intros x Hx. apply A3; auto.
Qed.
(* Insertion: true exactly for a key not held; evicts exactly when the key is new and the set is full,
   and then the key with the oldest insertion, never the one just inserted. *)
Theorem C52_insert_result : forall dur n l now k c, clock_ok (l ++ [CInsert now k]) -> crun l (cache_new dur n) = Some c ->
  exists c' fresh out, cache_insert now k c = Some (c', (fresh, out)) /\
    (fresh = true <-> cache_contains k c = false) /\ cache_contains k c' = true /\
    (out <> None <-> cache_contains k c = false /\ cache_len c = Nat.max n 1) /\
    (forall o, out = Some o -> o <> k /\ cache_contains o c' = false /\
       exists t, In (o, t) (c_list c) /\ forall e, In e (c_list c) -> t <= snd e) /\
    (forall x, x <> k -> out <> Some x -> cache_contains x c' = cache_contains x c).
Proof.
  intros dur n l now k c Hk E.
  assert (Hk1 : clock_ok l).
  { clear E. unfold clock_ok in *. revert Hk. generalize 0. induction l as [|e l IH]; intros t H; cbn in *; auto.
    destruct (when e); [destruct H as [H1 H2]; split; auto|auto]. }
  destruct (run_ok l (cache_new dur n) 0 (ci_new dur n) Hk1) as (c0 & t & E' & CIc & B & C & D & F).
  assert (c0 = c) by congruence. subst c0. specialize (F _ Hk). cbn in F. destruct F as [F _].
  cbn [c_max cache_new] in C.
  destruct (insert_ok c t now k CIc F) as (c' & b & o & I & CI' & _ & Cm & L & Hb & Ho).
  destruct CIc as [A1 A2 A3 A4 A5 A6 A7]. destruct CI' as [G1 G2 G3 G4 G5 G6 G7].
  assert (HC : forall x, cache_contains x c = true <-> In x (map fst (c_list c))) by (intros; unfold cache_contains; rewrite memN_In; apply A3).
  assert (HC' : forall x, cache_contains x c' = true <-> In x (map fst (c_list c'))) by (intros; unfold cache_contains; rewrite memN_In; apply G3).
  assert (HL : cache_len c = length (c_list c)).
  { unfold cache_len. rewrite <- (map_length fst (c_list c)). apply Nat.le_antisymm; apply NoDup_incl_length; auto; intros x Hx; apply A3; auto. }
  assert (HF : cache_contains k c = false <-> ~ In k (map fst (c_list c))).
  { rewrite <- HC. destruct (cache_contains k c); split; congruence. }
  assert (Hx' : forall x, In x (map fst (c_list c')) -> x = k \/ In x (map fst (c_list c))).
  { intros x Hx. rewrite L in Hx. unfold cap in Hx.
    assert (H : In x (map fst (without k (c_list c) ++ [(k, now)]))).
    { apply in_map_iff in Hx. destruct Hx as (e & <- & Hx). apply in_map. eapply in_skipn; exact Hx. }
    rewrite map_app, in_app_iff in H. cbn in H. destruct H as [H|[H|[]]]; auto. apply map_fst_without in H. tauto. }
  exists c', b, o. split; [auto|]. split; [rewrite HF; auto|].
  destruct (memN k (map fst (c_list c))) eqn:M.
  - (* refreshed *) apply memN_In in M. cbn [negb andb] in Ho. subst o.
    assert (L2 : c_list c' = without k (c_list c) ++ [(k, now)]).
    { rewrite L. apply cap_id. rewrite app_length. cbn.
      assert (S (length (without k (c_list c))) <= length (c_list c))%nat; [|lia].
      pose proof (take_out_eq k (c_list c) A1) as HT. destruct (take_out k (c_list c)) as [[e r]|]; [|tauto].
      destruct HT as (_ & -> & _ & HT). lia. }
    split; [apply HC'; rewrite L2, map_app, in_app_iff; cbn; auto|].
    split; [split; [congruence|intros [H _]; apply HF in H; tauto]|].
    split; [discriminate|].
    intros x Hx _. apply eq_true_iff_eq. rewrite HC, HC', L2, map_app, in_app_iff, map_fst_without. cbn. intuition congruence.
  - apply memN_nIn in M. rewrite (without_notin k) in L by auto. cbn [negb andb] in Ho.
    destruct (Nat.eqb_spec (c_max c) (length (c_list c))) as [EL|EL].
    + destruct (c_list c) as [|e0 rest] eqn:EL2; [cbn in EL; lia|]. cbn [hd_error option_map] in Ho. subst o.
      assert (L2 : c_list c' = rest ++ [(k, now)]).
      { rewrite L. unfold cap. rewrite EL. cbn [app length]. rewrite app_length. cbn [length].
        replace (S (length rest + 1) - S (length rest))%nat with 1%nat by lia. reflexivity. }
      split; [apply HC'; rewrite L2, map_app, in_app_iff; cbn; auto|].
      split; [split; [intros _; split; [apply HF; auto|congruence]|congruence]|].
      cbn [map] in A1. inversion A1 as [|? ? N1 N2]; subst.
      split.
      * intros o [= <-]. split; [cbn in M; tauto|]. split.
        -- destruct (cache_contains (fst e0) c') eqn:EE; auto. apply HC' in EE. rewrite L2, map_app, in_app_iff in EE.
           cbn in EE, M. destruct EE as [EE|[EE|[]]]; [tauto|]. exfalso. apply M. auto.
        -- exists (snd e0). split; [destruct e0; cbn; auto|]. intros e [<-|He]; [lia|].
           inversion A6 as [|? ? S1 S2]; subst. rewrite Forall_forall in S2. exact (S2 e He).
      * intros x Hx Hn. apply eq_true_iff_eq. rewrite HC, HC', L2, map_app, in_app_iff. cbn.
        split; [intuition congruence|]. intros [H|H]; [exfalso; apply Hn; congruence|auto].
    + subst o. assert (L2 : c_list c' = c_list c ++ [(k, now)]).
      { rewrite L. apply cap_id. rewrite app_length. cbn. lia. }
      split; [apply HC'; rewrite L2, map_app, in_app_iff; cbn; auto|].
      split; [split; [congruence|intros [_ H]; exfalso; apply EL; congruence]|].
      split; [discriminate|].
      intros x Hx _. apply eq_true_iff_eq. rewrite HC, HC', L2, map_app, in_app_iff. cbn. intuition congruence.
Qed.
Theorem C52_remove_result : forall dur n l k c, clock_ok l -> crun l (cache_new dur n) = Some c ->
  exists c', cache_remove k c = Some (c', cache_contains k c) /\ cache_contains k c' = false /\
    forall x, x <> k -> cache_contains x c' = cache_contains x c.
Proof.
  intros dur n l k c Hk E. destruct (run_ok l (cache_new dur n) 0 (ci_new dur n) Hk) as (c0 & t & E' & CIc & _).
  assert (c0 = c) by congruence. subst c0.
  destruct (remove_ok c t k CIc) as (c' & b & I & CI' & _ & _ & L & Hb).
  destruct CIc as [A1 A2 A3 _ _ _ _]. destruct CI' as [G1 G2 G3 _ _ _ _]. exists c'.
  assert (HC : forall x, cache_contains x c = true <-> In x (map fst (c_list c))) by (intros; unfold cache_contains; rewrite memN_In; apply A3).
  assert (HC' : forall x, cache_contains x c' = true <-> In x (map fst (c_list c'))) by (intros; unfold cache_contains; rewrite memN_In; apply G3).
  split; [rewrite I; do 2 f_equal; apply eq_true_iff_eq; rewrite HC; auto|]. split.
  - destruct (cache_contains k c') eqn:EE; auto. apply HC' in EE. rewrite L, map_fst_without in EE. tauto.
  - intros x Hx. apply eq_true_iff_eq. rewrite HC, HC', L, map_fst_without. tauto.
Qed.
(* A heartbeat returns exactly the keys held for the whole duration, oldest first, and drops exactly those. *)
Theorem C52_expiry_exact : forall dur n l now c, clock_ok (l ++ [CBeat now]) -> crun l (cache_new dur n) = Some c ->
  let '(c', out) := cache_beat now c in
  out = map fst (filter (fun e => snd e + dur <=? now) (held dur (Nat.max n 1) l)) /\
  forall k, cache_contains k c' = cache_contains k c && negb (memN k out).
Proof.
  intros dur n l now c Hk E.
  assert (Hk1 : clock_ok l).
  { clear E. unfold clock_ok in *. revert Hk. generalize 0. induction l as [|e l IH]; intros t H; cbn in *; auto.
    destruct (when e); [destruct H as [H1 H2]; split; auto|auto]. }
  destruct (run_ok l (cache_new dur n) 0 (ci_new dur n) Hk1) as (c0 & t & E' & CIc & B & C & D & F).
  assert (c0 = c) by congruence. subst c0. specialize (F _ Hk). cbn in F. destruct F as [F _].
  cbn [c_dur c_max c_list cache_new] in B, C, D.
  pose proof (beat_ok c t now CIc F) as H. destruct (cache_beat now c) as [c' out].
  destruct H as (CI' & _ & _ & L & O). destruct CIc as [A1 A2 A3 _ _ _ _]. destruct CI' as [G1 G2 G3 _ _ _ _].
  rewrite B in *. unfold held. rewrite <- D.
  assert (EF : forall h : list (N * N), filter (fun e => negb (now <? snd e + dur)) h = filter (fun e => snd e + dur <=? now) h).
  { intros h. apply filter_ext. intros e. destruct (N.ltb_spec now (snd e + dur)); destruct (N.leb_spec (snd e + dur) now); cbn; auto; lia. }
  rewrite EF in O. split; [auto|]. intros k. apply eq_true_iff_eq. rewrite andb_true_iff, negb_true_iff, memN_nIn.
  unfold cache_contains. rewrite !memN_In, A3, G3, L, O. unfold unexpired. rewrite !in_map_iff. split.
  - intros (e & <- & He). apply filter_In in He. destruct He as [He Hx]. split; [exists e; auto|].
    intros (e2 & Q & H2). apply filter_In in H2. destruct H2 as [H2 Hy].
    assert (e = e2).
    { clear - A1 He H2 Q. revert A1 He H2. induction (c_list c) as [|a h IH]; intros A1 He H2; [destruct He|].
      cbn in A1. inversion A1; subst. destruct He as [->|He], H2 as [->|H2]; auto.
      - exfalso. apply H1. rewrite in_map_iff. exists e2. auto.
      - exfalso. apply H1. rewrite in_map_iff. exists e. auto. }
    subst e2. apply N.ltb_lt in Hx. apply N.leb_le in Hy. lia.
  - intros ((e & <- & He) & Hn). exists e. split; auto. apply filter_In. split; auto.
    destruct (N.ltb_spec now (snd e + dur)); auto. exfalso. apply Hn. exists e. split; auto. apply filter_In. split; auto.
    apply N.leb_le. auto.
Qed.

(* A key stays held for its whole duration unless it is removed or that many later insertions push it out. *)
Definition inserts (l : list cev) : nat := length (filter (fun e => match e with CInsert _ _ => true | _ => false end) l).
Lemma cap_keeps n (a b : list (N * N)) x : (S (length b) <= n)%nat ->
  exists a', cap n (a ++ x :: b) = a' ++ x :: b.
Proof.
  intros H. unfold cap. rewrite app_length. cbn [length]. set (d := (length a + S (length b) - n)%nat).
  assert (d <= length a)%nat by lia. exists (skipn d a). rewrite skipn_app. replace (d - length a)%nat with 0%nat by lia. reflexivity.
Qed.
Lemma keeps_go dur n k t l : forall a b t0 m, (S (m + inserts l) <= n)%nat -> (length b <= m)%nat -> t <= t0 ->
  (forall e, In e l -> match e with
     | CRemove x => x <> k | CBeat now => now < t + dur | CInsert now x => x = k -> t <= now end) ->
  exists t1, In (k, t1) (fold_left (held_step dur n) l (a ++ (k, t0) :: b)) /\ t <= t1.
Proof.
  induction l as [|e l IH]; intros a b t0 m Hm Hb Ht Hl; cbn [fold_left].
  - exists t0. split; auto. apply in_app_iff. right. left. reflexivity.
  - pose proof (Hl e (or_introl eq_refl)) as He. assert (Hl' : forall e0, In e0 l -> _) by (intros e0 H0; exact (Hl e0 (or_intror H0))).
    destruct e as [now x|x|now]; cbn [held_step inserts filter length] in *; fold (inserts l) in *.
    + destruct (N.eq_dec x k) as [->|Hne].
      * destruct (cap_keeps n (without k (a ++ (k, t0) :: b)) [] (k, now)) as (a' & E); [cbn; lia|].
        rewrite E. apply (IH a' [] now m); auto; [lia|cbn; lia].
      * assert (W : without x (a ++ (k, t0) :: b) = without x a ++ (k, t0) :: without x b).
        { unfold without. rewrite filter_app. cbn [filter fst]. destruct (N.eqb_spec k x); [congruence|]. reflexivity. }
        pose proof (without_len x b) as WL.
        rewrite W, <- app_assoc. cbn [app].
        destruct (cap_keeps n (without x a) (without x b ++ [(x, now)]) (k, t0)) as (a' & E); [rewrite app_length; cbn; lia|].
        rewrite E. apply (IH a' _ t0 (S m)); auto; [lia|rewrite app_length; cbn; lia].
    + assert (W : without x (a ++ (k, t0) :: b) = without x a ++ (k, t0) :: without x b).
      { unfold without. rewrite filter_app. cbn [filter fst]. destruct (N.eqb_spec k x); [congruence|]. reflexivity. }
      rewrite W. pose proof (without_len x b) as WL. apply (IH _ _ t0 m); auto; lia.
    + assert (W : unexpired dur now (a ++ (k, t0) :: b) = unexpired dur now a ++ (k, t0) :: unexpired dur now b).
      { unfold unexpired. rewrite filter_app. cbn [filter snd]. destruct (N.ltb_spec now (t0 + dur)); [reflexivity|lia]. }
      rewrite W. apply (IH _ _ t0 m); auto.
      eapply Nat.le_trans; [|exact Hb]. unfold unexpired. clear. induction b as [|e b IHb]; cbn; [lia|]. destruct (now <? snd e + dur); cbn; lia.
Qed.
Lemma clock_ge l : forall t x t', clock_from t l -> In x l -> when x = Some t' -> t <= t'.
Proof.
  induction l as [|a l IH]; intros t x t' H Hx Hw; [destruct Hx|]. cbn in H. destruct Hx as [->|Hx].
  - rewrite Hw in H. tauto.
  - destruct (when a) as [m|].
    + destruct H as [H1 H2]. specialize (IH m x t' H2 Hx Hw). lia.
    + eapply IH; eauto.
Qed.
Lemma clock_app t l1 e l2 now : clock_from t (l1 ++ e :: l2) -> when e = Some now -> clock_from now l2.
Proof.
  revert t. induction l1 as [|a l1 IH]; intros t H Hw; cbn in H.
  - rewrite Hw in H. tauto.
  - destruct (when a); [destruct H as [_ H]|]; eapply IH; eauto.
Qed.
Theorem C52_held_for_duration : forall dur n l1 t k l2, clock_ok (l1 ++ CInsert t k :: l2) ->
  (inserts l2 < Nat.max n 1)%nat -> ~ In (CRemove k) l2 -> (forall now, In (CBeat now) l2 -> now < t + dur) ->
  exists c, crun (l1 ++ CInsert t k :: l2) (cache_new dur n) = Some c /\ cache_contains k c = true.
Proof.
  intros dur n l1 t k l2 Hk Hi Hr Hb. destruct (C52_exact dur n _ Hk) as (c & E & _ & Hc & _). exists c. split; auto.
  apply Hc. unfold held. rewrite fold_left_app. cbn [fold_left held_step].
  set (h := fold_left (held_step dur (Nat.max n 1)) l1 []).
  destruct (cap_keeps (Nat.max n 1) (without k h) [] (k, t)) as (a & Ea); [cbn; lia|]. rewrite Ea.
  destruct (keeps_go dur (Nat.max n 1) k t l2 a [] t 0) as (t1 & H1 & _); [lia|cbn; lia|lia| |exists t1; exact H1].
  intros e He. destruct e as [now x|x|now]; auto.
  - intros _. eapply clock_ge; [exact (clock_app 0 l1 (CInsert t k) l2 t Hk eq_refl)|exact He|reflexivity].
  - intros ->. auto.
Qed.
(* ... and once a heartbeat comes at or after its time, it is gone unless it was inserted again. *)
Theorem C52_gone_after_duration : forall dur n l1 t k l2 now, clock_ok (l1 ++ CInsert t k :: l2 ++ [CBeat now]) ->
  (forall t', ~ In (CInsert t' k) l2) -> t + dur <= now ->
  exists c, crun (l1 ++ CInsert t k :: l2 ++ [CBeat now]) (cache_new dur n) = Some c /\ cache_contains k c = false.
Proof.
  intros dur n l1 t k l2 now Hk Hn Ht. destruct (C52_exact dur n _ Hk) as (c & E & _ & Hc & _). exists c. split; auto.
  destruct (cache_contains k c) eqn:EE; auto. apply Hc in EE. destruct EE as (t' & Hin). exfalso.
  unfold held in Hin. rewrite fold_left_app in Hin. cbn [fold_left] in Hin. rewrite fold_left_app in Hin. cbn [fold_left held_step] in Hin.
  set (N := Nat.max n 1) in *. set (h := fold_left (held_step dur N) l1 []) in *.
  assert (G : forall l h0, (forall t', ~ In (CInsert t' k) l) -> (forall u, In (k, u) h0 -> u = t) ->
    forall u, In (k, u) (fold_left (held_step dur N) l h0) -> u = t).
  { clear. induction l as [|e l IH]; intros h0 Hn H u Hu; cbn [fold_left] in Hu; [auto|].
    apply (IH (held_step dur N h0 e)); auto; [intros t' H'; apply (Hn t'); right; auto|].
    intros v Hv. destruct e as [w x|x|w]; cbn [held_step] in Hv.
    - unfold cap in Hv. assert (Hv2 : In (k, v) (without x h0 ++ [(x, w)])).
      { eapply in_skipn; exact Hv. }
      apply in_app_iff in Hv2. destruct Hv2 as [Hv2|[[= -> ->]|[]]].
      + apply without_in in Hv2. apply H. tauto.
      + exfalso. apply (Hn v). left. reflexivity.
    - apply without_in in Hv. apply H. tauto.
    - unfold unexpired in Hv. apply filter_In in Hv. apply H. tauto. }
  unfold unexpired in Hin. apply filter_In in Hin. destruct Hin as [Hin Hlt]. cbn in Hlt. apply N.ltb_lt in Hlt.
  assert (t' = t); [|lia]. eapply G; [exact Hn| |exact Hin].
  intros u Hu. unfold cap in Hu. assert (Hu2 : In (k, u) (without k h ++ [(k, t)])).
  { eapply in_skipn; exact Hu. }
  apply in_app_iff in Hu2. destruct Hu2 as [Hu2|[[= <-]|[]]]; auto. apply without_in in Hu2. cbn in Hu2. tauto.
Qed.

(* Three keys into a cache of two, a refresh, an expiry. *)
Theorem C52_example : exists c1 c2 c3,
  crun [CInsert 10 1; CInsert 20 2; CInsert 30 1] (cache_new 600 2) = Some c1 /\
  cache_insert 40 3 c1 = Some (c2, (true, Some 2)) /\ c_list c2 = [(1, 30); (3, 40)] /\
  cache_beat 630 c2 = (c3, [1]) /\ cache_contains 3 c3 = true /\ cache_contains 1 c3 = false /\
  clock_ok [CInsert 10 1; CInsert 20 2; CInsert 30 1; CInsert 40 3; CBeat 630].
Proof. do 3 eexists. repeat split; try (vm_compute; reflexivity); cbn; lia. Qed.
(* The cap is at least one, so a configured cap of zero still bans the newest peer. *)
Theorem C52_example_zero_cap : exists c, crun [CInsert 1 7; CInsert 2 8] (cache_new 600 0) = Some c /\ c_list c = [(8, 2)].
Proof. eexists. vm_compute. auto. Qed.
