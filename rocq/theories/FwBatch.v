(** One batch (C60). *)
From Verif Require Import Util FwModel FwSpec FwWalk.
From Coq Require Import String Ascii.
Import List ListNotations.
Local Open Scope N_scope.

Definition add_tally (start : N) (y : tally) (r : tres) : tally :=
  mkTally (y_delivered y + b2n (is_delivered r)) (y_rejected y + b2n (is_rejected r))
          (y_unreached y + b2n (is_back r && negb (by_deadline start r))) (y_noverdict y + b2n (is_back r))
          (y_requeued y + b2n (is_taken_back r)).

Lemma in_turn_le env nd : forall t t', in_turn env t nd t' -> t <= t'.
Proof. induction nd as [|d nd IH]; cbn; intros t t' H; [lia|]. destruct H as [_ H]. apply IH in H. lia. Qed.
Lemma exhausted_all prov ord un nd (known : N -> Prop) : (forall u, In u un -> known u) -> exhausted prov ord [] un nd -> all_asked prov known ord nd.
Proof.
  intros HK H k Hk. destruct (H k Hk) as [A|[A|(u & A & [B|B])]]; auto; right; right; exists u; auto.
Qed.
Lemma owner_spec slots x : match owner_of slots x with Some o => owns slots x o | None => forall o, ~ owns slots x o end.
Proof.
  unfold owner_of, owns. destruct (x_sender x) as [v|]; [|intros o (v & E & _); discriminate E].
  destruct (nth_error _ _) as [o|] eqn:E; [exists v; auto|]. intros o (v' & Ev & E'). injection Ev as <-. congruence.
Qed.
Lemma dial_order_of slots fb x : dial_order slots fb x (match owner_of slots x with Some o => o :: fb | None => fb end).
Proof.
  pose proof (owner_spec slots x) as H. destruct (owner_of slots x) as [o|]; [left; exists o; auto|right; auto].
Qed.

Section One.
Variable env : nat -> N -> reply * N.
Variable pool : option (nat -> bool).
Variable slots fallbacks : list N.
Variable prov : bmap N.
Variable start : N.
Let tx_good i un r := tx_ok (env i) (requeue_one pool i (t_tx r)) slots fallbacks prov start (fun u => In u un) r.

Lemma one_tx_spec i x b k :
  next_budget (start + BATCH_BUDGET) (k_t k) = Some b -> start <= k_t k ->
  let k1 := one_tx env pool slots fallbacks prov (start + GRACE) i x b k in
  exists r, k_res k1 = k_res k ++ [r] /\ t_tx r = x /\ tx_good i (k_un k) r /\ t_start r = k_t k /\
    k_t k1 = N.max (t_end r) (t_back r) /\ k_t k1 <= start + 120000 /\
    (forall u, In u (k_un k1) <-> In u (k_un k) \/ unreach (t_dials r) u) /\
    k_demo k1 = k_demo k ++ demos (env i) (t_dials r) /\ k_lift k1 = k_lift k /\
    k_tally k1 = add_tally start (k_tally k) r.
Proof using.
  intros Hb Hs. cbn zeta. unfold next_budget in Hb. unfold BATCH_BUDGET, TX_BUDGET in Hb.
  destruct (N.eqb_spec (start + 120000 - k_t k) 0) as [|Hd]; [discriminate|].
  assert (Eb : b = N.min (start + 120000 - k_t k) 15000) by congruence. clear Hb.
  unfold one_tx. pose proof (dial_order_of slots fallbacks x) as Ho.
  destruct (walk _ _ _ _ _) as [r s] eqn:W.
  set (ord := match owner_of slots x with Some o => o :: fallbacks | None => fallbacks end) in *. clearbody ord.
  apply walk_spec in W as [nd W]. destruct W. cbn [w_t w_tried w_held w_un w_demo w_lift w_dials app] in *.
  assert (Es : w_dials s = nd) by exact ws_dials. rewrite Es. clear ws_dials.
  set (known := fun u => In u (k_un k)).
  assert (SO : sends_ok (env i) prov known ord nd).
  { split; [auto|]. split; [auto|]. split; [auto|]. split; [|exact ws_redial].
    intros a d b0 p q E1 E2 E3. apply (exhausted_all prov p (k_un k)); auto. apply (ws_order a d b0 p q); auto. }
  pose proof (in_turn_le _ _ _ _ ws_time) as Hle.
  assert (Hlim : w_t s <= k_t k + b) by (apply ws_lim; lia). clear ws_lim ws_order.
  assert (Un : forall u, In u (w_un s) <-> In u (k_un k) \/ unreach nd u) by exact ws_un.
  assert (Hlift : (w_lift s ++ k_lift k)%list = k_lift k) by (rewrite ws_lift; reflexivity).
  assert (NK : forall r0, t_dials r0 = nd -> t_start r0 = k_t k -> t_cut r0 = None -> t_end r0 = w_t s -> times_ok (env i) start r0).
  { intros r0 E1 E2 E3 E4. unfold times_ok. rewrite E1, E2, E3, E4. split; [lia|]. split; [lia|]. split; [lia|]. split; [lia|].
    exists (w_t s). split; auto. split; [lia|reflexivity]. }
  destruct r as [[|why|]|c].
  - eexists. cbn [k_res k_t k_un k_demo k_lift k_tally]. split; [reflexivity|]. cbn [t_tx t_dials t_start t_end t_back].
    split; [reflexivity|]. split; [|split; [reflexivity|split; [lia|split; [lia|split; [auto|split; [rewrite ws_demo; reflexivity|split; [auto|]]]]]]].
    + exists ord. split; auto. split; [auto|]. split; [apply NK; reflexivity|]. split; [intros c E; discriminate E|].
      unfold fate_ok. cbn. split; auto. split; auto. destruct ws_res as (a & d & A & B & C & D). exists a, d. split; auto. split; auto. split; auto. lia.
    + unfold add_tally, is_delivered, is_rejected, is_back, by_deadline, is_taken_back. cbn. rewrite !Nat.add_0_r, Nat.add_1_r. destruct (k_tally k); reflexivity.
  - eexists. cbn [k_res k_t k_un k_demo k_lift k_tally]. split; [reflexivity|]. cbn [t_tx t_dials t_start t_end t_back].
    split; [reflexivity|]. split; [|split; [reflexivity|split; [lia|split; [lia|split; [auto|split; [rewrite ws_demo; reflexivity|split; [auto|]]]]]]].
    + exists ord. split; auto. split; [auto|]. split; [apply NK; reflexivity|]. split; [intros c E; discriminate E|].
      unfold fate_ok. cbn. split; auto. destruct ws_res as [A [(a & d & B & C & D)|(B & C & D)]]; (split; [exact A|]).
      * left. exists a, d. split; auto. split; auto. split; auto. lia.
      * right. unfold first_rejection in C. destruct (rejections nd) as [|d [|]] eqn:E; try (cbn in D; lia). exists d. split; auto.
        split; [destruct (d_disp d); congruence|]. intros _. apply (exhausted_all prov ord (k_un k)); auto.
    + unfold add_tally, is_delivered, is_rejected, is_back, by_deadline, is_taken_back. cbn. rewrite !Nat.add_0_r, Nat.add_1_r. destruct (k_tally k); reflexivity.
  - eexists. cbn [k_res k_t k_un k_demo k_lift k_tally]. split; [reflexivity|]. cbn [t_tx t_dials t_start t_end t_back]. unfold GRACE.
    split; [reflexivity|]. split; [|split; [reflexivity|split; [lia|split; [lia|split; [auto|split; [rewrite ws_demo; reflexivity|split; [auto|]]]]]]].
    + exists ord. split; auto. split; [auto|]. split; [apply NK; reflexivity|]. split; [intros c E; discriminate E|].
      unfold fate_ok. cbn. destruct ws_res as (A & B & C & D). split; auto. split; auto. split; auto. split; [lia|].
      intros _. left. apply (exhausted_all prov ord (k_un k)); auto.
    + unfold add_tally, is_delivered, is_rejected, is_back, by_deadline, is_taken_back. cbn.
      replace (k_t k =? start + 120000) with false by lia. rewrite andb_false_r. cbn. rewrite !Nat.add_0_r, !Nat.add_1_r.
      destruct (requeue_one pool i x); reflexivity.
  - destruct ws_res as (A & B & C & D & F & G & (u & H1 & H2) & I).
    assert (Hc : forall r0, t_dials r0 = nd -> t_cut r0 = Some c -> cut_ok prov known ord r0).
    { intros r0 E1 E2 c' E. rewrite E1. rewrite E2 in E. injection E as <-. split; auto. split; auto. split.
      - exists u. split; auto. split; intros X; apply H2; apply Un; auto.
      - intros p q E3 E4. apply (exhausted_all prov p (k_un k)); auto. apply (I p q); auto. }
    assert (Ht : forall r0, t_dials r0 = nd -> t_start r0 = k_t k -> t_cut r0 = Some c -> t_end r0 = k_t k + b -> times_ok (env i) start r0).
    { intros r0 E1 E2 E3 E4. unfold times_ok. rewrite E1, E2, E3, E4. split; [lia|]. split; [lia|]. split; [lia|]. split; [lia|].
      exists (w_t s). split; auto. split; [lia|]. split; [lia|]. exact G. }
    destruct (w_held s) as [why|] eqn:Eh.
    + eexists. cbn [k_res k_t k_un k_demo k_lift k_tally]. split; [reflexivity|]. cbn [t_tx t_dials t_start t_end t_back].
      split; [reflexivity|]. split; [|split; [reflexivity|split; [lia|split; [lia|split; [auto|split; [rewrite ws_demo; reflexivity|split; [auto|]]]]]]].
      * exists ord. split; auto. split; [auto|]. split; [apply Ht; reflexivity|]. split; [apply Hc; reflexivity|].
        unfold fate_ok. cbn. split; auto. split; auto. right. unfold first_rejection in ws_held.
        destruct (rejections nd) as [|d [|]] eqn:E; [discriminate|exists d|cbn in B; lia]. split; auto. split; [destruct (d_disp d); congruence|discriminate].
      * unfold add_tally, is_delivered, is_rejected, is_back, by_deadline, is_taken_back. cbn. rewrite !Nat.add_0_r, Nat.add_1_r. destruct (k_tally k); reflexivity.
    + eexists. cbn [k_res k_t k_un k_demo k_lift k_tally]. split; [reflexivity|]. cbn [t_tx t_dials t_start t_end t_back]. unfold GRACE.
      split; [reflexivity|]. split; [|split; [reflexivity|split; [lia|split; [lia|split; [auto|split; [rewrite ws_demo; reflexivity|split; [auto|]]]]]]].
      * exists ord. split; auto. split; [auto|]. split; [apply Ht; reflexivity|]. split; [apply Hc; reflexivity|].
        unfold fate_ok. cbn. split; auto. split.
        { unfold first_rejection in ws_held. destruct (rejections nd) as [|d l] eqn:E; auto.
          assert (Hd' : In d (rejections nd)) by (rewrite E; left; auto). apply filter_In in Hd' as [_ Hd'].
          unfold is_rejection in Hd'. destruct (d_disp d); discriminate. }
        split; auto. split; [lia|]. discriminate.
      * unfold add_tally, is_delivered, is_rejected, is_back, by_deadline, is_taken_back, TX_BUDGET. cbn.
        replace (k_t k + b <? k_t k + 15000) with (b <? 15000) by lia. rewrite !Nat.add_0_r, !Nat.add_1_r.
        destruct (b <? 15000), (requeue_one pool i x); cbn; rewrite ?Nat.add_0_r, ?Nat.add_1_r; reflexivity.
Qed.

(** the results [nr] of the transactions from number [i] on, [un] known before *)
Definition known_after (un : list N) (nr : list tres) (u : N) : Prop := In u un \/ unreach (flat_map t_dials nr) u.
Definition loop_ok (i : nat) (txs : list ftx) (k k' : task) (nr : list tres) : Prop :=
  k_res k' = k_res k ++ nr /\ map t_tx nr = txs /\
  (forall j r, nth_error nr j = Some r -> tx_ok (env (i + j)) (requeue_one pool (i + j) (t_tx r)) slots fallbacks prov start (known_after (k_un k) (firstn j nr)) r) /\
  (forall u, In u (k_un k') <-> known_after (k_un k) nr u) /\
  k_demo k' = k_demo k ++ demotions env i nr /\ k_lift k' = k_lift k /\
  k_tally k' = fold_left (add_tally start) nr (k_tally k) /\ k_t k' <= start + 120000.

Lemma unreach_app a b u : unreach (a ++ b) u <-> unreach a u \/ unreach b u.
Proof. unfold unreach. split.
  - intros (d & H & A). apply in_app_or in H as [H|H]; [left|right]; exists d; auto.
  - intros [(d & H & A)|(d & H & A)]; exists d; (split; [apply in_or_app; auto|auto]).
Qed.
Lemma tx_ok_ext e acc p1 p2 r : (forall u, p1 u <-> p2 u) -> tx_ok e acc slots fallbacks prov start p1 r -> tx_ok e acc slots fallbacks prov start p2 r.
Proof.
  intros H.
  assert (AA : forall l ds, all_asked prov p1 l ds -> all_asked prov p2 l ds).
  { intros l ds X x Hx. destruct (X x Hx) as [A|[A|(u & A & [B|B])]]; auto; right; right; exists u; split; auto. left. apply H. auto. }
  intros (ord & A & (B1 & B2 & B3 & B4 & B5) & C & D & E). exists ord. split; auto. split; [|split; auto; split].
  - split; auto. split; auto. split; auto. split.
    + intros a d b p q X Y Z. apply AA. apply (B4 a d b p q); auto.
    + intros a d b X. destruct (B5 a d b X) as [Y Z]. split; auto. rewrite <- H. auto.
  - intros c Hc. destruct (D c Hc) as (D1 & D2 & (u & D3 & D4 & D5) & D6). split; auto. split; auto. split.
    + exists u. rewrite <- H. auto.
    + intros p q X Y. apply AA, (D6 p q); auto.
  - unfold fate_ok in *. destruct (t_fate r) as [|why|acc'].
    + exact E.
    + destruct E as (E1 & E2 & [E3|(d & E3 & E4 & E5)]); split; auto; split; auto. right. exists d. auto.
    + destruct E as (E1 & E2 & E3 & E4 & E5). split; auto. split; auto. split; auto. split; auto.
      intros X. destruct (E5 X); auto.
Qed.

Lemma loop_cons i x txs k k1 k' r nr :
  k_res k1 = k_res k ++ [r] -> t_tx r = x ->
  tx_ok (env i) (requeue_one pool i (t_tx r)) slots fallbacks prov start (fun u => In u (k_un k)) r ->
  (forall u, In u (k_un k1) <-> In u (k_un k) \/ unreach (t_dials r) u) ->
  k_demo k1 = k_demo k ++ demos (env i) (t_dials r) -> k_lift k1 = k_lift k -> k_tally k1 = add_tally start (k_tally k) r ->
  loop_ok (S i) txs k1 k' nr -> loop_ok i (x :: txs) k k' (r :: nr).
Proof using.
  intros E1 E2 E3 E4 E5 E6 E7 (L1 & L2 & L3 & L4 & L5 & L6 & L7 & L8).
  assert (KA : forall l u, known_after (k_un k1) l u <-> known_after (k_un k) (r :: l) u).
  { intros l u. unfold known_after. rewrite E4. cbn [flat_map]. rewrite unreach_app. intuition. }
  unfold loop_ok.
  split; [rewrite L1, E1, <- app_assoc; reflexivity|]. split; [cbn; rewrite E2, L2; reflexivity|]. split.
  { intros [|j] r0 H; cbn [nth_error] in H.
    - injection H as <-. rewrite Nat.add_0_r. cbn [firstn]. eapply tx_ok_ext; [|exact E3].
      intros u. unfold known_after. cbn. split; auto. intros [H|(d & [] & _)]. auto.
    - rewrite Nat.add_succ_r. cbn [firstn]. eapply tx_ok_ext; [|exact (L3 j r0 H)]. intros u. apply KA. }
  split; [intros u; rewrite L4; apply KA|].
  split; [rewrite L5, E5, <- app_assoc; reflexivity|]. split; [congruence|].
  split; [rewrite L7, E7; reflexivity|auto].
Qed.
Lemma loop_nil i k : k_t k <= start + 120000 -> loop_ok i [] k k [].
Proof using.
  intros H. unfold loop_ok. rewrite !app_nil_r. split; auto. split; auto. split.
  { intros [|j] r X; discriminate X. }
  split; [|auto]. intros u. unfold known_after. cbn. split; auto. intros [X|(d & [] & _)]. auto.
Qed.
Lemma tail_spec txs : forall i k, k_t k = start + 120000 -> exists nr, loop_ok i txs k (tail_back pool (start + GRACE) i txs k) nr.
Proof using.
  induction txs as [|x txs IH]; intros i k Ht; cbn [tail_back].
  { exists []. apply loop_nil. lia. }
  cbn zeta. match goal with |- exists nr, loop_ok _ _ _ (tail_back _ _ _ _ ?kk) _ => set (k1 := kk) end.
  unfold GRACE in *.
  destruct (IH (S i) k1) as [nr H]; [cbn; lia|].
  eexists. refine (loop_cons i x txs k k1 _ _ nr eq_refl _ _ _ _ _ _ H); cbn.
  - reflexivity.
  - exists (match owner_of slots x with Some o => o :: fallbacks | None => fallbacks end). split; [apply dial_order_of|].
    split; [|split; [|split]].
    + split; [constructor|]. split; [constructor|]. split; [constructor|]. split.
      * intros [|] d0 b0 p q E; discriminate E.
      * intros [|] d0 b0 E; discriminate E.
    + unfold times_ok. cbn. split; [lia|]. split; [lia|]. split; [lia|]. split; [lia|]. exists (k_t k). split; auto. split; lia.
    + intros c E; discriminate E.
    + unfold fate_ok. cbn. split; [constructor|]. split; [reflexivity|]. split; [reflexivity|]. split; [unfold GRACE; lia|]. intros _. right. auto.
  - intros u. split; auto. intros [X|(d & [] & _)]. auto.
  - rewrite app_nil_r. reflexivity.
  - reflexivity.
  - unfold add_tally, is_delivered, is_rejected, is_back, by_deadline, is_taken_back. cbn.
    replace (k_t k <? k_t k + 15000) with true by lia. replace (k_t k =? start + 120000) with true by lia. cbn.
    rewrite !Nat.add_0_r, !Nat.add_1_r. destruct (requeue_one pool i x); cbn; rewrite ?Nat.add_0_r, ?Nat.add_1_r; reflexivity.
Qed.
Lemma batch_spec txs : forall i k, start <= k_t k -> k_t k <= start + 120000 ->
  exists nr, loop_ok i txs k (batch_loop env pool slots fallbacks prov (start + BATCH_BUDGET) (start + GRACE) i txs k) nr.
Proof using.
  induction txs as [|x txs IH]; intros i k Ht Ht'; cbn [batch_loop].
  { exists []. apply loop_nil. auto. }
  destruct (next_budget (start + BATCH_BUDGET) (k_t k)) as [b|] eqn:Eb.
  - pose proof (one_tx_spec i x b k Eb Ht) as H. cbn zeta in H.
    set (k1 := one_tx _ _ _ _ _ _ _ _ _ _) in *. clearbody k1.
    destruct H as (r & E1 & E2 & E3 & E4 & E5 & E6 & E7 & E8 & E9 & E10).
    assert (Es : start <= k_t k1). { rewrite E5. destruct E3 as (_ & _ & _ & (T1 & T2 & _) & _). lia. }
    destruct (IH (S i) k1 Es E6) as [nr H].
    exists (r :: nr). apply (loop_cons i x txs k k1 _ r nr); auto.
  - apply (tail_spec (x :: txs)). unfold next_budget, BATCH_BUDGET in Eb. destruct (N.eqb_spec (start + 120000 - k_t k) 0); [lia|discriminate].
Qed.
End One.

Lemma fold_tally start nr : forall y, let z := fold_left (add_tally start) nr y in
  y_delivered z = (y_delivered y + count is_delivered nr)%nat /\ y_rejected z = (y_rejected y + count is_rejected nr)%nat /\
  y_unreached z = (y_unreached y + count (fun r => is_back r && negb (by_deadline start r)) nr)%nat /\
  y_noverdict z = (y_noverdict y + count is_back nr)%nat /\ y_requeued z = (y_requeued y + count is_taken_back nr)%nat.
Proof.
  unfold count. induction nr as [|r nr IH]; intros y; cbn [fold_left filter length]; [rewrite !Nat.add_0_r; auto|].
  destruct (IH (add_tally start y r)) as (A & B & C & D & E). cbn zeta. rewrite A, B, C, D, E. clear.
  unfold add_tally. cbn [y_delivered y_rejected y_unreached y_noverdict y_requeued].
  destruct (is_delivered r), (is_rejected r), (is_back r && negb (by_deadline start r)), (is_back r), (is_taken_back r); cbn [b2n length];
    repeat split; lia.
Qed.
Lemma count_split start nr :
  (count is_delivered nr + count is_rejected nr + count (fun r => is_back r && negb (by_deadline start r)) nr + count (by_deadline start) nr = length nr)%nat.
Proof.
  unfold count. induction nr as [|r nr IH]; [reflexivity|]. cbn [filter].
  destruct (is_back r) eqn:B.
  - replace (is_delivered r) with false by (revert B; unfold is_back, is_delivered; destruct (t_fate r); congruence).
    replace (is_rejected r) with false by (revert B; unfold is_back, is_rejected; destruct (t_fate r); congruence).
    cbn [andb]. destruct (by_deadline start r); cbn [negb length]; lia.
  - replace (by_deadline start r) with false by (unfold by_deadline; rewrite B; reflexivity). cbn [andb].
    assert (X : (is_delivered r = true /\ is_rejected r = false) \/ (is_delivered r = false /\ is_rejected r = true)).
    { revert B. unfold is_back, is_delivered, is_rejected. destruct (t_fate r); auto. }
    destruct X as [[-> ->]|[-> ->]]; cbn [length]; lia.
Qed.
