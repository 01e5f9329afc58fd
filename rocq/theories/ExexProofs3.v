(* C57 proofs, part 3: no holes, replay, catch-up, merge. *)
From Verif Require Import Util ExexModel ExexSpec ExexProofs ExexProofs2.
Local Open Scope N_scope.

(* ---------- no silent holes ---------- *)
Lemma no_holes_none t l : no_holes t l -> no_holes None l.
Proof. revert t; induction l as [|[c|o|s|m] l IH]; intros t; cbn; auto; try apply IH. tauto. Qed.
Lemma no_holes_tl t run l : no_holes t (run ++ l) -> no_holes None l.
Proof.
  revert t; induction run as [|[c|o|s|m] run IH]; intros t; cbn [app no_holes]; [apply no_holes_none| | | |]; try apply IH. intros [_ H]. eapply IH; eauto.
Qed.
Lemma lossy_no_holes a b : lossy a b -> forall t, no_holes t a -> no_holes t b.
Proof.
  induction 1 as [|n a b H IH|run a b Hn H IH]; intros t; auto.
  - destruct n; cbn [no_holes]; auto. intros [A B]; auto.
  - intros Hh. cbn [no_holes]. apply IH. eapply no_holes_tl; eauto.
Qed.
Lemma is_seg_le s : is_seg s -> seg_first s <= seg_tip s /\ seg_tip s = seg_first s + N.of_nat (length s) - 1 /\ (0 < length s)%nat.
Proof.
  intros [Hn He]. assert (Hl : (0 < length s)%nat) by (destruct s; [congruence|cbn; lia]).
  assert (H : forall k n, last (run_from n (S k)) 0 = n + N.of_nat k).
  { clear. induction k as [|k IH]; intros n; [cbn; lia|]. change (run_from n (S (S k))) with (n :: run_from (n + 1) (S k)).
    specialize (IH (n + 1)). cbn [run_from] in *. cbn [last] in *. rewrite IH. lia. }
  destruct (length s) as [|k] eqn:E; [lia|]. specialize (H k (seg_first s)). rewrite <- He in H. unfold seg_tip. rewrite H. lia.
Qed.
Lemma story_no_holes ins : forall b, in_order b (commits ins) -> no_holes b (story b ins).
Proof.
  assert (Hc : forall s r b, (forall b, in_order b (commits r) -> no_holes b (story b r)) -> in_order b (s :: commits r) ->
     no_holes b (match s, b with [], _ => story b r | _, None => NChain s :: story (Some (seg_tip s)) r
       | _, Some b0 => (if b0 + 1 <? seg_first s then [NLag (seg_first s - (b0 + 1))] else []) ++ NChain s :: story (Some (N.max b0 (seg_tip s))) r end)).
  { intros s r b IH (H1 & H2 & H3). pose proof (is_seg_le _ H1) as (L1 & _). destruct s as [|x s]; [destruct H1; congruence|]. destruct b as [b|].
    - replace (N.max b (seg_tip (x :: s))) with (seg_tip (x :: s)) by lia. destruct (b + 1 <? seg_first (x :: s)) eqn:E; cbn [app no_holes].
      + split; auto.
      + split; [lia|auto].
    - cbn [no_holes]. split; auto. }
  induction ins as [|i ins IH]; intros b; cbn [story no_holes]; auto.
  destruct i as [[c|m]|[c|m]|s|o s|]; cbn [commits flat_map app]; intros H; cbn [no_holes]; auto.
  - eapply no_holes_none; eauto.
  - eapply no_holes_none; eauto.
Qed.

(* ---------- replay ---------- *)
Lemma rpolls_done src e k : rpolls src e Done k = repeat None k.
Proof. induction k; cbn; auto. f_equal; auto. Qed.
Lemma rpolls_exact src e : e <= U64 -> forall k start,
  rpolls src e (Active start) k = map Some (firstn k (replay_spec src start (range_len start e))) ++ repeat None (k - length (replay_spec src start (range_len start e))).
Proof.
  intros He. induction k as [|k IH]; intros start; cbn [rpolls]; [rewrite firstn_O; auto|].
  cbn [rpoll]. destruct (e <? start) eqn:E.
  { replace (range_len start e) with O by (unfold range_len; lia). cbn. rewrite rpolls_done. auto. }
  assert (Hr : range_len start e = S (range_len (start + 1) e)) by (unfold range_len; lia). rewrite Hr. cbn [replay_spec].
  destruct (src start) as [seg| |] eqn:Es.
  - cbn [firstn map length app Nat.sub]. f_equal. destruct (start =? e) eqn:E2.
    + rewrite rpolls_done. replace (range_len (start + 1) e) with O by (unfold range_len; lia). cbn. rewrite firstn_nil. cbn. f_equal. lia.
    + unfold sat_add1. replace (N.min (start + 1) U64) with (start + 1) by lia. apply IH.
  - cbn [firstn map length app Nat.sub]. f_equal. rewrite rpolls_done, firstn_nil, Nat.sub_0_r. auto.
  - cbn [firstn map length app Nat.sub]. f_equal. rewrite rpolls_done, firstn_nil, Nat.sub_0_r. auto.
Qed.
Lemma somes_exact {A} (l : list A) n : somes (map Some l ++ repeat None n) = l.
Proof.
  unfold somes. rewrite flat_map_app. replace (flat_map _ (repeat None n)) with (@nil A) by (induction n; cbn; auto). rewrite app_nil_r.
  induction l; cbn; auto. f_equal; auto.
Qed.
Lemma replay_collect src start e k : e <= U64 -> (range_len start e <= k)%nat ->
  somes (rpolls src e (Active start) k) = replay_spec src start (range_len start e).
Proof.
  intros He Hk. rewrite rpolls_exact; auto. rewrite somes_exact. apply firstn_all2.
  assert (H : forall n j, (length (replay_spec src n j) <= j)%nat). { clear. intros n j; revert n; induction j; intros n; cbn; auto. destruct (src n); cbn; [specialize (IHj (n + 1))| |]; lia. }
  specialize (H start (range_len start e)). lia.
Qed.

(* ---------- dedup ---------- *)
Lemma dedup_incr l : forall b, incr b (chains_i (dedup b l)).
Proof.
  induction l as [|x l IH]; intros b; [cbn; auto|]. destruct x as [[c|o|s|m]|e]; cbn [dedup]; try (cbn [chains_i flat_map app]; apply IH).
  destruct s as [|y s]; [apply IH|]. unfold keep_height. destruct b as [b|]; [destruct (seg_tip (y :: s) <=? b) eqn:E|].
  - apply IH.
  - change (incr (Some b) ((y :: s) :: chains_i (dedup (Some (seg_tip (y :: s))) l))). cbn [incr]. split; [congruence|]. split; [lia|]. apply IH.
  - change (incr None ((y :: s) :: chains_i (dedup (Some (seg_tip (y :: s))) l))). cbn [incr]. split; [congruence|]. split; auto. apply IH.
Qed.
Lemma dedup_others b l : filter (fun x => match x with IOk (NChain _) => false | _ => true end) (dedup b l) =
  filter (fun x => match x with IOk (NChain _) => false | _ => true end) l.
Proof.
  revert b; induction l as [|x l IH]; intros b; auto. destruct x as [[c|o|s|m]|e]; cbn [dedup filter]; try (f_equal; apply IH).
  destruct s as [|y s]; [apply IH|]. destruct (keep_height b (seg_tip (y :: s))) as [[|] lh]; cbn [filter]; apply IH.
Qed.
Lemma dedup_live t l : forall p q, chains l = p ++ q -> (forall s, In s p -> s <> [] /\ seg_tip s <= t) -> linked t q ->
  chains_i (dedup (Some t) (map IOk l)) = q.
Proof.
  revert t. induction l as [|x l IH]; intros t p q Hc Hp Hq.
  - cbn in *. symmetry in Hc. apply app_eq_nil in Hc. destruct Hc as [_ ->]. auto.
  - destruct x as [c|o|s|m]; cbn [map dedup chains flat_map app] in *; try (cbn [chains_i flat_map app]; eapply IH; eauto).
    destruct p as [|s' p].
    + cbn [app] in Hc. destruct q as [|s' q]; [discriminate|]. injection Hc as <- Hc. destruct Hq as (Q1 & Q2 & Q3).
      pose proof (is_seg_le _ Q1) as (L & _). destruct s as [|y s]; [destruct Q1; congruence|]. unfold keep_height.
      assert (E : seg_tip (y :: s) <=? t = false) by lia. rewrite E. change (chains_i (IOk (NChain (y :: s)) :: dedup (Some (seg_tip (y :: s))) (map IOk l))) with ((y :: s) :: chains_i (dedup (Some (seg_tip (y :: s))) (map IOk l))).
      f_equal. apply IH with (p := []); auto. intros z [].
    + cbn [app] in Hc. injection Hc as <- Hc. destruct (Hp s (or_introl eq_refl)) as [P1 P2]. destruct s as [|y s]; [congruence|]. unfold keep_height.
      assert (E : seg_tip (y :: s) <=? t = true) by lia. rewrite E. eapply IH; eauto. intros z Hz. apply Hp. right; auto.
Qed.
Lemma dedup_replay src l : forall k n lh, (forall m, n <= m -> m < n + N.of_nat k -> src m = ROk [m]) -> match lh with Some t => t < n | None => True end ->
  dedup lh (replay_spec src n k ++ l) = map (fun m => IOk (NChain [m])) (run_from n k) ++ dedup (match k with O => lh | _ => Some (n + N.of_nat k - 1) end) l.
Proof.
  induction k as [|k IH]; intros n lh Hs Hl; cbn [replay_spec run_from map app]; auto.
  rewrite (Hs n) by lia. cbn [app dedup seg_tip last]. unfold keep_height. assert (E : match lh with Some prev => if n <=? prev then (false, lh) else (true, Some n) | None => (true, Some n) end = (true, Some n)).
  { destruct lh as [t|]; auto. assert (E : n <=? t = false) by lia. rewrite E. auto. }
  rewrite E. f_equal. rewrite IH; [|intros m M1 M2; apply Hs; lia|lia]. f_equal. f_equal. destruct k; f_equal; lia.
Qed.
Lemma chains_i_app a b : chains_i (a ++ b) = chains_i a ++ chains_i b.
Proof. unfold chains_i. apply flat_map_app. Qed.
Lemma chains_i_singles l : chains_i (map (fun m => IOk (NChain [m])) l) = map (fun m => [m]) l.
Proof. induction l; cbn; auto. f_equal; auto. Qed.
Lemma concat_singles {A} (l : list A) : concat (map (fun m => [m]) l) = l.
Proof. induction l; cbn; auto. f_equal; auto. Qed.
Lemma run_from_app n a b : run_from n (a + b) = run_from n a ++ run_from (n + N.of_nat a) b.
Proof. revert n; induction a as [|a IH]; intros n; cbn [run_from Nat.add app]; [f_equal; lia|]. f_equal. rewrite IH. f_equal. f_equal. lia. Qed.
Lemma end_of_cons b s l : end_of b (s :: l) = end_of (seg_tip s) l.
Proof. unfold end_of. destruct l; auto. Qed.
Lemma linked_le l : forall b, linked b l -> b <= end_of b l.
Proof.
  induction l as [|s l IH]; intros b; [cbn; lia|]. intros (H1 & H2 & H3). rewrite end_of_cons. apply IH in H3. apply is_seg_le in H1. lia.
Qed.
Lemma linked_concat l : forall b, linked b l -> concat l = run_from (b + 1) (N.to_nat (end_of b l - b)).
Proof.
  induction l as [|s l IH]; intros b H.
  - cbn. rewrite N.sub_diag. auto.
  - destruct H as (H1 & H2 & H3). rewrite end_of_cons. cbn [concat]. pose proof (linked_le _ _ H3) as L. pose proof (is_seg_le _ H1) as (L1 & L2 & L3). destruct H1 as [_ H1].
    rewrite (IH _ H3). rewrite H1 at 1. rewrite H2. replace (N.to_nat (end_of (seg_tip s) l - b)) with (length s + N.to_nat (end_of (seg_tip s) l - seg_tip s))%nat by lia.
    rewrite run_from_app. f_equal. f_equal. lia.
Qed.

(* ---------- catch-up ---------- *)
Lemma linked_app l : forall b m, linked b (l ++ m) <-> linked b l /\ linked (end_of b l) m.
Proof.
  induction l as [|s l IH]; intros b m; cbn [app linked].
  - unfold end_of. cbn. tauto.
  - rewrite IH, end_of_cons. tauto.
Qed.
Lemma linked_bounds l : forall b s, linked b l -> In s l -> b < seg_first s /\ seg_tip s <= end_of b l /\ is_seg s.
Proof.
  induction l as [|a l IH]; intros b s H Hi; [destruct Hi|]. destruct Hi as [<-|Hi].
  - destruct H as (H1 & H2 & H3). rewrite end_of_cons. pose proof (linked_le _ _ H3). split; [lia|]. split; auto.
  - destruct H as (H1 & H2 & H3). rewrite end_of_cons. destruct (IH _ _ H3 Hi) as (A & B & C). apply is_seg_le in H1. split; [lia|]. split; auto.
Qed.
Lemma boundary C g j s : linked g C -> In s C -> seg_tip s <= end_of g (firstn j C) \/ end_of g (firstn j C) < seg_first s.
Proof.
  intros H Hi. rewrite <- (firstn_skipn j C) in H, Hi. apply linked_app in H. destruct H as [H1 H2]. apply in_app_or in Hi. destruct Hi as [Hi|Hi].
  - left. eapply linked_bounds in Hi; eauto. tauto.
  - right. eapply linked_bounds in Hi; eauto. tauto.
Qed.
Lemma split_at t l : forall b, linked b l -> b <= t -> (forall s, In s l -> seg_tip s <= t \/ t < seg_first s) ->
  exists p q, l = p ++ q /\ (forall s, In s p -> s <> [] /\ seg_tip s <= t) /\ linked t q /\ (q <> [] -> end_of b p = t).
Proof.
  induction l as [|s l IH]; intros b H Hb Hs.
  - exists [], []. cbn. split; auto. split; [intros s []|]. split; auto. congruence.
  - destruct H as (H1 & H2 & H3). destruct (Hs s (or_introl eq_refl)) as [L|L].
    + destruct (IH (seg_tip s) H3 L) as (p & q & -> & P & Q & R). { intros z Hz. apply Hs. right; auto. }
      exists (s :: p), q. split; auto. split; [|split; auto].
      * intros z [<-|Hz]; auto. destruct H1; auto.
      * intros Hq. rewrite end_of_cons. auto.
    + exists [], (s :: l). split; auto. split; [intros z []|]. assert (b = t) by lia. subst b. split; [cbn; auto|]. intros _. unfold end_of. auto.
Qed.
(* what is received without a marker is an initial part of the story *)
Lemma lossy_prefix a b : lossy a b -> forall b1 b2, b = b1 ++ b2 -> has_lag b1 = false -> exists a2, a = b1 ++ a2 /\ lossy a2 b2.
Proof.
  induction 1 as [|n a b H IH|run a b Hn H IH]; intros b1 b2 He Hl.
  - symmetry in He. apply app_eq_nil in He. destruct He as [-> ->]. exists []. split; auto. constructor.
  - destruct b1 as [|x b1]; cbn [app] in He.
    + subst b2. exists (n :: a). split; auto. constructor; auto.
    + injection He as <- He. cbn in Hl. apply orb_false_iff in Hl. destruct Hl as [_ Hl]. destruct (IH _ _ He Hl) as (a2 & -> & A). exists a2. split; auto.
  - destruct b1 as [|x b1]; cbn [app] in He.
    + subst b2. exists (run ++ a). split; auto. constructor; auto.
    + injection He as <- He. discriminate Hl.
Qed.
Lemma chains_app a b : chains (a ++ b) = chains a ++ chains b.
Proof. unfold chains. apply flat_map_app. Qed.
Lemma chains_story ins : forall b, (forall s, In s (commits ins) -> s <> []) -> chains (story b ins) = commits ins.
Proof.
  assert (Hc : forall s r b, s <> [] -> (forall b, chains (story b r) = commits r) ->
     chains (match s, b with [], _ => story b r | _, None => NChain s :: story (Some (seg_tip s)) r
       | _, Some b0 => (if b0 + 1 <? seg_first s then [NLag (seg_first s - (b0 + 1))] else []) ++ NChain s :: story (Some (N.max b0 (seg_tip s))) r end) = s :: commits r).
  { intros s r b Hn IH. destruct s as [|x s]; [congruence|]. destruct b as [b|].
    - rewrite chains_app. destruct (b + 1 <? seg_first (x :: s)); cbn [app]; exact (f_equal (cons (x :: s)) (IH _)).
    - exact (f_equal (cons (x :: s)) (IH _)). }
  induction ins as [|i ins IH]; intros b Hn; [auto|].
  assert (IH' : forall b, chains (story b ins) = commits ins) by (intros b'; apply IH; intros s Hs; apply Hn; unfold commits; cbn [flat_map]; apply in_or_app; right; auto).
  destruct i as [[c|m]|[c|m]|s|o s|]; cbn [commits flat_map app story] in *; try apply IH'.
  - apply Hc; auto. apply Hn. left; auto.
  - apply Hc; auto. apply Hn. left; auto.
Qed.
(* without a marker and without holes a list of segments is linked *)
Lemma no_holes_linked l : forall b, no_holes (Some b) l -> has_lag l = false -> (forall s, In s (chains l) -> is_seg s) -> linked b (chains l).
Proof.
  induction l as [|[c|o|s|m] l IH]; intros b H Hl Hs; cbn [chains flat_map app no_holes has_lag existsb] in *; try (apply IH; auto; fail); try exact I.
  - destruct H as [H1 H2]. cbn [linked]. split; [apply Hs; left; auto|]. split; auto. apply IH; auto. intros z Hz. apply Hs. right; auto.
  - discriminate.
Qed.
Lemma no_holes_linked_none l : no_holes None l -> has_lag l = false -> (forall s, In s (chains l) -> is_seg s) ->
  match chains l with [] => True | s :: r => linked (seg_tip s) r end.
Proof.
  induction l as [|[c|o|s|m] l IH]; intros H Hl Hs; cbn [chains flat_map app no_holes has_lag existsb] in *; try (apply IH; auto; fail); try exact I.
  - destruct H as [H1 H2]. apply no_holes_linked; auto. intros z Hz. apply Hs. right; auto.
  - discriminate.
Qed.
Lemma subseq_in {A} (l m : list A) x : subseq l m -> In x l -> In x m.
Proof. induction 1; cbn; intuition auto. Qed.
Lemma linked_in_order l : forall b, linked b l -> in_order (Some b) l.
Proof. induction l as [|s l IH]; intros b; cbn; auto. intros (H1 & H2 & H3). split; auto. split; [lia|auto]. Qed.
Lemma in_order_weak l : forall b b', b' <= b -> in_order (Some b) l -> in_order (Some b') l.
Proof. destruct l as [|s l]; intros b b' H; cbn; auto. intros (A & B & D). split; auto. split; [lia|auto]. Qed.
Lemma in_order_none l b : in_order b l -> in_order None l.
Proof. destruct l; cbn; tauto. Qed.
Lemma in_order_sub l m : subseq l m -> forall b, in_order (Some b) m -> in_order (Some b) l.
Proof.
  induction 1; intros b; cbn [in_order]; auto.
  - intros (A & B & D). auto.
  - intros (A & B & D). apply IHsubseq. eapply in_order_weak; [|eauto]. apply is_seg_le in A. lia.
Qed.

(* ---------- merge ---------- *)
Definition wt (x : src4) (g : mg) : nat :=
  match x with
  | SCert => if mg_o g then 1 else 0
  | SOut => (if mg_o g then 0 else 1) + 2 * (if mg_m g then 1 else 0)
  | SCanon => (if mg_o g then 0 else 1) + 2 * ((if mg_m g then 0 else 1) + 2 * (if mg_end g then 0 else if mg_i g then 1 else 0))
  | SEvents => (if mg_o g then 0 else 1) + 2 * ((if mg_m g then 0 else 1) + 2 * (if mg_i g then 0 else 1))
  end.
Lemma wt_bound x g : (wt x g < bound x)%nat.
Proof. destruct x, g as [[] [] [] []]; cbn; lia. Qed.
Lemma poll_wt x r g : is_ready r x = true -> (x = SEvents -> mg_end g = false) ->
  fst (poll_outer r g) = Some x \/ (wt x (snd (poll_outer r g)) < wt x g)%nat.
Proof.
  destruct r as [[] [] [] [] []], g as [[] [] [] []], x; cbn; intros H1 H2; try discriminate H1; try (specialize (H2 eq_refl); discriminate H2); auto; right; lia.
Qed.
Lemma poll_end r g : r_evend r = false -> mg_end g = false -> mg_end (snd (poll_outer r g)) = false.
Proof. destruct r as [[] [] [] [] []], g as [[] [] [] []]; cbn; auto; discriminate. Qed.
Lemma fair x rs : forall g, (forall r, In r rs -> is_ready r x = true) -> (x = SEvents -> mg_end g = false) -> (wt x g < length rs)%nat ->
  exists k, (k <= wt x g)%nat /\ nth_error (polls g rs) k = Some (Some x).
Proof.
  induction rs as [|r rs IH]; intros g Hr He Hl; [cbn in Hl; lia|]. cbn [polls].
  assert (Hr0 := Hr r (or_introl eq_refl)). destruct (poll_wt x r g Hr0 He) as [H|H].
  - destruct (poll_outer r g) as [o g']. cbn in H. subst o. exists 0%nat. split; [lia|auto].
  - assert (He' : x = SEvents -> mg_end (snd (poll_outer r g)) = false).
    { intros ->. apply poll_end; auto. cbn in Hr0. apply andb_true_iff in Hr0. destruct Hr0 as [_ Hr0]. destruct (r_evend r); auto; discriminate. }
    destruct (poll_outer r g) as [o g']. cbn [snd] in *. cbn [length] in Hl. destruct (IH g') as (k & K1 & K2); auto; [intros r' Hi; apply Hr; right; auto|lia|].
    exists (S k). split; [lia|auto].
Qed.
