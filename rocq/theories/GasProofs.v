From Verif Require Import Util Types CommitteeModel CommitteeProofs GasModel GasSpec.
Local Open Scope N_scope.

(** ** Encodings *)
Lemma shift_disjoint a b k : b < 2 ^ k -> N.land (N.shiftl a k) b = 0.
Proof.
  intros H. apply N.bits_inj. intros i. rewrite N.land_spec, N.bits_0.
  destruct (N.lt_ge_cases i k) as [Hi|Hi].
  - rewrite N.shiftl_spec_low by assumption. reflexivity.
  - rewrite andb_comm. destruct (N.eq_dec b 0) as [->|nz].
    + rewrite N.bits_0. reflexivity.
    + rewrite (N.bits_above_log2 b i); [reflexivity|].
      apply N.lt_le_trans with k; [|assumption].
      apply N.log2_lt_pow2; lia.
Qed.

Lemma lor_add_shift a b k : b < 2 ^ k -> N.lor (a * 2 ^ k) b = a * 2 ^ k + b.
Proof.
  intros H. rewrite <- N.shiftl_mul_pow2.
  rewrite N.add_nocarry_lxor by (apply shift_disjoint; assumption).
  symmetry. apply N.lxor_lor. apply shift_disjoint. assumption.
Qed.

Lemma nonce_val e r : e < 2 ^ 32 -> r < 2 ^ 32 -> nonce e r = e * 2 ^ 32 + r.
Proof.
  intros He Hr. unfold nonce. rewrite N.shiftl_mul_pow2, N.mod_small by lia.
  apply lor_add_shift. assumption.
Qed.

Lemma nonce_roundtrip e r : e < 2 ^ 32 -> r < 2 ^ 32 -> deconstruct_nonce (nonce e r) = (e, r).
Proof.
  intros He Hr. rewrite nonce_val by assumption. unfold deconstruct_nonce.
  rewrite N.shiftr_div_pow2. f_equal.
  - rewrite N.div_add_l by lia. rewrite (N.div_small r) by assumption.
    rewrite N.add_0_r. apply N.mod_small. assumption.
  - rewrite N.add_comm, N.mod_add by lia. apply N.mod_small. assumption.
Qed.

Lemma nonce_order e1 r1 e2 r2 : e1 < 2 ^ 32 -> r1 < 2 ^ 32 -> e2 < 2 ^ 32 -> r2 < 2 ^ 32 ->
  (nonce e1 r1 < nonce e2 r2 <-> e1 < e2 \/ e1 = e2 /\ r1 < r2).
Proof. intros. rewrite !nonce_val by assumption. lia. Qed.

Lemma difficulty_val i w : i < 2 ^ 48 -> w < 2 ^ 16 -> difficulty i w = i * 2 ^ 16 + w.
Proof.
  intros Hi Hw. unfold difficulty. rewrite N.shiftl_mul_pow2, N.mod_small by lia.
  apply lor_add_shift. assumption.
Qed.

Lemma worker_id_of_low d : worker_id_of d = d mod 2 ^ 16.
Proof.
  unfold worker_id_of. change 0xffff with (N.ones 16). rewrite N.land_ones.
  replace (2 ^ 64) with (2 ^ 16 * 2 ^ 48) by reflexivity.
  rewrite N.mod_mul_r by lia.
  rewrite (N.mul_comm (2 ^ 16)), N.mod_add by lia. apply N.mod_mod. lia.
Qed.

Lemma worker_roundtrip i w : w < 2 ^ 16 -> worker_id_of (difficulty i w) = w.
Proof.
  intros Hw. rewrite worker_id_of_low. unfold difficulty.
  rewrite N.shiftl_mul_pow2.
  replace (2 ^ 64) with (2 ^ 16 * 2 ^ 48) by reflexivity.
  rewrite (N.mul_comm i), N.mul_mod_distr_l by lia.
  rewrite N.mul_comm, lor_add_shift by assumption.
  rewrite N.add_comm, N.mod_add by lia. apply N.mod_small. assumption.
Qed.

Lemma first_batch_iff i w : i < 2 ^ 48 -> w < 2 ^ 16 -> first_batch (difficulty i w) = true <-> i = 0.
Proof.
  intros Hi Hw. rewrite difficulty_val by assumption. unfold first_batch.
  rewrite N.ltb_lt. change (2 ^ 16) with 65536 in *. lia.
Qed.

(** ** Fees *)
Definition eff_target (t : N) : N := N.min u64max (t * 2) / 2.

Lemma eff_target_val t : eff_target t = N.min t (2 ^ 63 - 1).
Proof. unfold eff_target, u64max. lia. Qed.

Lemma mul_div_le b x t : 0 < t -> x <= t -> b * x / (t * 8) <= b / 8.
Proof.
  intros Ht Hx. rewrite <- N.div_div by lia.
  apply N.div_le_mono; [lia|].
  apply N.div_le_upper_bound; [lia|]. nia.
Qed.

Lemma mul_div_le' b x t : 0 < t -> x <= t + 1 -> b <= 2 * t + 2 ->
  b * x / (t * 8) <= (b + 7) / 8.
Proof.
  intros Ht Hx Hb. rewrite <- N.div_div by lia.
  destruct (N.le_gt_cases x t) as [L|L].
  - apply N.div_le_mono; [lia|]. transitivity b; [|lia].
    apply N.div_le_upper_bound; [lia|]. nia.
  - assert (x = t + 1) by lia. subst x.
    replace (b * (t + 1)) with (b * t + b) by lia.
    rewrite N.div_add_l by lia.
    apply N.div_le_mono; [lia|].
    assert (b / t <= 4).
    { apply N.div_le_upper_bound; [lia|]. lia. }
    lia.
Qed.

Definition calc_next_val (u l b : N) : N :=
  let t := l / 2 in
  if u =? t then b
  else if t <? u then b + N.max 1 (b * (u - t) / (t * 8))
  else b - b * (t - u) / (t * 8).

Lemma calc_next_total u t0 b :
  let l := N.min u64max (t0 * 2) in
  0 < t0 -> u <= l -> b <= SAFE_MAX ->
  calc_next u l b = Some (calc_next_val u l b).
Proof.
  intros l H0 Hu Hb. unfold calc_next, calc_next_val. cbv zeta. set (t := l / 2).
  assert (Ht : 0 < t) by (unfold t, l, u64max; lia).
  assert (HT : t <= 2 ^ 63 - 1) by (unfold t, l, u64max; lia).
  assert (HX : u - t <= t \/ (t = 2 ^ 63 - 1 /\ u - t <= t + 1)).
  { revert Hu. unfold t, l, u64max. lia. }
  assert (SM : SAFE_MAX = 16140901064495857664) by reflexivity.
  destruct (N.compare_spec u t) as [E|E|E].
  - subst u. rewrite N.eqb_refl. reflexivity.
  - rewrite (proj2 (N.eqb_neq u t)) by lia. rewrite (proj2 (N.ltb_ge t u)) by lia.
    unfold chk128.
    assert (b * (t - u) < 2 ^ 128).
    { apply N.le_lt_trans with (SAFE_MAX * (2 ^ 63 - 1)); [|reflexivity].
      apply N.mul_le_mono; lia. }
    rewrite (proj2 (N.ltb_lt (b * (t - u)) _)) by assumption.
    rewrite (proj2 (N.ltb_lt (t * 8) _)) by lia.
    rewrite (proj2 (N.eqb_neq (t * 8) 0)) by lia.
    pose proof (mul_div_le b (t - u) t Ht ltac:(lia)).
    unfold chk64. rewrite (proj2 (N.leb_le _ u64max)) by (unfold u64max; lia).
    reflexivity.
  - rewrite (proj2 (N.eqb_neq u t)) by lia. rewrite (proj2 (N.ltb_lt t u)) by lia.
    unfold chk128.
    assert (b * (u - t) < 2 ^ 128).
    { apply N.le_lt_trans with (SAFE_MAX * (2 ^ 63)); [|reflexivity].
      apply N.mul_le_mono; lia. }
    rewrite (proj2 (N.ltb_lt (b * (u - t)) _)) by assumption.
    rewrite (proj2 (N.ltb_lt (t * 8) _)) by lia.
    rewrite (proj2 (N.eqb_neq (t * 8) 0)) by lia.
    assert (D : b * (u - t) / (t * 8) <= (b + 7) / 8).
    { destruct HX as [HX|[HX1 HX2]].
      - transitivity (b / 8); [apply mul_div_le; assumption|]. apply N.div_le_mono; lia.
      - apply mul_div_le'; lia. }
    unfold chk64. rewrite (proj2 (N.leb_le (b * (u - t) / (t * 8)) u64max)) by (unfold u64max; lia).
    rewrite (proj2 (N.leb_le _ u64max)) by (unfold u64max; lia).
    reflexivity.
Qed.

Lemma next_fee_1559_val cur used t : 0 < t ->
  next_fee_1559 cur used t =
  Some (N.max (calc_next_val (N.min used (N.min u64max (t * 2))) (N.min u64max (t * 2))
                             (N.min cur SAFE_MAX)) MIN_FEE).
Proof.
  intros Ht. unfold next_fee_1559. rewrite (proj2 (N.eqb_neq t 0)) by lia. cbv zeta.
  rewrite calc_next_total by lia. reflexivity.
Qed.

Lemma calc_next_val_bounds u t0 b :
  let l := N.min u64max (t0 * 2) in
  0 < t0 -> u <= l -> b <= SAFE_MAX ->
  b - b / 8 <= calc_next_val u l b /\
  calc_next_val u l b <= b + N.max 1 ((b + 7) / 8) /\
  (u = l / 2 -> calc_next_val u l b = b) /\
  (l / 2 < u -> b + 1 <= calc_next_val u l b) /\
  (u < l / 2 -> calc_next_val u l b <= b).
Proof.
  intros l H0 Hu Hb. unfold calc_next_val. cbv zeta. set (t := l / 2).
  assert (Ht : 0 < t) by (unfold t, l, u64max; lia).
  assert (HX : u - t <= t \/ (t = 2 ^ 63 - 1 /\ u - t <= t + 1)).
  { revert Hu. unfold t, l, u64max. lia. }
  assert (SM : SAFE_MAX = 16140901064495857664) by reflexivity.
  destruct (N.eqb_spec u t) as [E|E]; [lia|].
  destruct (N.ltb_spec t u) as [L|L].
  - assert (D : b * (u - t) / (t * 8) <= (b + 7) / 8).
    { destruct HX as [HX|[HX1 HX2]].
      - transitivity (b / 8); [apply mul_div_le; assumption|]. apply N.div_le_mono; lia.
      - apply mul_div_le'; lia. }
    lia.
  - pose proof (mul_div_le b (t - u) t Ht ltac:(lia)) as D.
    revert D. generalize (b * (t - u) / (t * 8)). intros d D.
    clear HX. clearbody t. clear l Hu. repeat split; intros; lia.
Qed.

(** below 2^63 the target is not saturated and the rise is at most an eighth rounded down *)
Lemma calc_next_val_upper u t0 b :
  let l := N.min u64max (t0 * 2) in
  0 < t0 -> t0 < 2 ^ 63 -> u <= l ->
  calc_next_val u l b <= b + N.max 1 (b / 8).
Proof.
  intros l H0 H1 Hu. unfold calc_next_val. cbv zeta. set (t := l / 2).
  assert (Ht : t = t0) by (unfold t, l, u64max; lia).
  assert (l = 2 * t0) by (unfold l, u64max; lia).
  destruct (N.eqb_spec u t) as [E|E]; [lia|].
  destruct (N.ltb_spec t u) as [L|L].
  - pose proof (mul_div_le b (u - t) t ltac:(lia) ltac:(lia)) as D.
    revert D. generalize (b * (u - t) / (t * 8)). intros d D. clearbody t. clear l H Hu Ht. lia.
  - generalize (b * (t - u) / (t * 8)). intros d. clearbody t. clear l H Hu Ht. lia.
Qed.

Lemma calc_next_val_mono u u' t0 b :
  let l := N.min u64max (t0 * 2) in
  0 < t0 -> u <= u' ->
  calc_next_val u l b <= calc_next_val u' l b.
Proof.
  intros l H0 Hu. unfold calc_next_val. cbv zeta. set (t := l / 2).
  assert (Ht : 0 < t) by (unfold t, l, u64max; lia).
  assert (A : u <= u' -> b * (u - t) / (t * 8) <= b * (u' - t) / (t * 8)).
  { intros. apply N.div_le_mono; [lia|]. apply N.mul_le_mono_l. lia. }
  assert (B : u <= u' -> b * (t - u') / (t * 8) <= b * (t - u) / (t * 8)).
  { intros. apply N.div_le_mono; [lia|]. apply N.mul_le_mono_l. lia. }
  revert A B.
  generalize (b * (u - t) / (t * 8)), (b * (u' - t) / (t * 8)),
             (b * (t - u') / (t * 8)), (b * (t - u) / (t * 8)).
  intros d1 d2 d3 d4 A B. specialize (A Hu). specialize (B Hu). clearbody t. clear l.
  destruct (N.eqb_spec u t) as [E|E], (N.eqb_spec u' t) as [E'|E'];
    destruct (N.ltb_spec t u) as [L|L], (N.ltb_spec t u') as [L'|L']; lia.
Qed.

Lemma next_fee_total c cur used : cur <= u64max ->
  (forall f, c = Static f -> f <= u64max) ->
  exists f, next_fee c cur used = Some f /\ f <= u64max /\
            (forall t, c = Eip1559 t -> MIN_FEE <= f).
Proof.
  intros Hc Hs. destruct c as [t|f]; simpl.
  - destruct (N.eq_dec t 0) as [->|nz].
    + exists (N.max cur MIN_FEE). unfold next_fee_1559. simpl.
      unfold u64max, MIN_FEE in *. repeat split; intros; lia.
    + rewrite next_fee_1559_val by lia. eexists. split; [reflexivity|].
      pose proof (calc_next_val_bounds (N.min used (N.min u64max (t * 2))) t
                    (N.min cur SAFE_MAX) ltac:(lia) ltac:(lia) ltac:(lia)) as (_ & B & _).
      assert (SM : SAFE_MAX = 16140901064495857664) by reflexivity.
      revert B. generalize (calc_next_val (N.min used (N.min u64max (t * 2)))
        (N.min u64max (t * 2)) (N.min cur SAFE_MAX)). intros v B.
      unfold u64max, MIN_FEE in *. split; intros; lia.
  - exists f. split; [reflexivity|]. split; [apply Hs; reflexivity|discriminate].
Qed.

(** ** Slots *)
Lemma upd_nth_length {A} n (f : A -> A) l : length (upd_nth n f l) = length l.
Proof. revert n; induction l as [|x l IH]; intros [|n]; simpl; auto. Qed.

Lemma upd_nth_spec {A} n (f : A -> A) l m :
  nth_error (upd_nth n f l) m = if Nat.eqb m n then option_map f (nth_error l m) else nth_error l m.
Proof.
  revert n m; induction l as [|x l IH]; intros [|n] [|m]; simpl; auto.
  destruct (Nat.eqb m n); reflexivity.
Qed.

Lemma set_num_workers_resize n acc : set_num_workers n acc = resize (Nat.max n 1) acc.
Proof.
  unfold set_num_workers. destruct (Nat.eqb_spec (length acc) (Nat.max n 1)) as [E|E]; [|reflexivity].
  unfold resize. rewrite <- E, firstn_all, Nat.sub_diag. simpl. rewrite app_nil_r. reflexivity.
Qed.

Lemma resize_length n acc : length (resize n acc) = n.
Proof. unfold resize. rewrite app_length, firstn_length, repeat_length. lia. Qed.

Lemma resize_nth n acc w : (w < n)%nat ->
  nth_error (resize n acc) w =
  match nth_error acc w with Some s => Some s | None => Some slot0 end.
Proof.
  intros H. unfold resize. destruct (Nat.lt_ge_cases w (length acc)) as [L|L].
  - rewrite nth_error_app1 by (rewrite firstn_length; lia).
    rewrite <- (firstn_skipn n acc) at 2.
    rewrite nth_error_app1 by (rewrite firstn_length; lia).
    destruct (nth_error (firstn n acc) w) eqn:E; [reflexivity|].
    apply nth_error_None in E. rewrite firstn_length in E. lia.
  - rewrite nth_error_app2 by (rewrite firstn_length; lia).
    rewrite (proj2 (nth_error_None acc w)) by assumption.
    rewrite firstn_length.
    destruct (nth_error (repeat slot0 (n - length acc)) (w - Nat.min n (length acc))) eqn:E.
    + f_equal. apply nth_error_In in E. apply repeat_spec in E. assumption.
    + apply nth_error_None in E. rewrite repeat_length in E. lia.
Qed.

Lemma acc_run_app s a b : acc_run s (a ++ b) =
  match acc_run s a with Some s' => acc_run s' b | None => None end.
Proof.
  revert s; induction a as [|o a IH]; intros s; simpl; [reflexivity|].
  destruct (acc_step s o); [apply IH|reflexivity].
Qed.

Definition slot_ok (w : nat) (hist : list acc_op) (s : slot) : Prop :=
  s_blocks s = N.of_nat (length (blocks_since_reset w hist)) mod 2 ^ 64 /\
  s_used s = sumN (map fst (blocks_since_reset w hist)) mod 2 ^ 64 /\
  s_limit s = sumN (map snd (blocks_since_reset w hist)) mod 2 ^ 64 /\
  s_fee s = last_fee w hist.

Lemma wadd64_mod a b : wadd64 (a mod 2 ^ 64) b = (b + a) mod 2 ^ 64.
Proof. unfold wadd64. rewrite N.add_mod_idemp_l by lia. f_equal. apply N.add_comm. Qed.

Lemma slots_correct k ops s : acc_run (acc_new k) ops = Some s ->
  length (ac_slots s) = workers_now k (rev ops) /\
  (forall w, (length (ac_slots s) <= w)%nat ->
     blocks_since_reset w (rev ops) = [] /\ last_fee w (rev ops) = MIN_FEE) /\
  (forall w sl, nth_error (ac_slots s) w = Some sl -> slot_ok w (rev ops) sl).
Proof.
  revert s. induction ops as [|o ops IH] using rev_ind; intros s H.
  - simpl in H. injection H as <-. simpl. rewrite repeat_length. split; [reflexivity|].
    split; [auto|]. intros w sl E. apply nth_error_In, repeat_spec in E. subst sl.
    repeat split; reflexivity.
  - rewrite acc_run_app in H. destruct (acc_run (acc_new k) ops) as [s1|]; [|discriminate].
    specialize (IH s1 eq_refl). destruct IH as (I1 & I2 & I3).
    simpl in H. destruct (acc_step s1 o) as [s2|] eqn:E; [|discriminate].
    injection H as <-. rewrite rev_app_distr. cbn [rev app].
    destruct o as [w u l| |n|w f|id| |c]; simpl in E.
    + destruct (inc_block (ac_slots s1) w u l) as [sl'|] eqn:Ei; [|discriminate].
      injection E as <-. cbn [ac_slots]. unfold inc_block in Ei. cbn [workers_now blocks_since_reset last_fee].
      destruct (N.eqb_spec u 0) as [->|Hu].
      * injection Ei as <-.
        split; [assumption|]. split.
        -- intros w0 Hw. rewrite andb_false_r. apply I2. assumption.
        -- intros w0 sl0 E0. specialize (I3 _ _ E0). unfold slot_ok in *.
           cbn [blocks_since_reset last_fee]. rewrite N.eqb_refl. simpl (negb _). rewrite andb_false_r. assumption.
      * destruct (Nat.ltb_spec w (length (ac_slots s1))) as [L|L]; [|discriminate].
        injection Ei as <-. rewrite upd_nth_length. split; [assumption|]. split.
        -- intros w0 Hw. destruct (Nat.eqb_spec w w0) as [->|ne]; [lia|]. simpl. apply I2. assumption.
        -- intros w0 sl0 E0. rewrite upd_nth_spec in E0. unfold slot_ok.
           cbn [blocks_since_reset last_fee]. rewrite (proj2 (N.eqb_neq u 0) Hu).
           rewrite (Nat.eqb_sym w w0).
           destruct (Nat.eqb_spec w0 w) as [->|ne].
           ++ simpl (true && negb false). cbv iota.
              destruct (nth_error (ac_slots s1) w) as [sl1|] eqn:E1; [|discriminate].
              simpl in E0. injection E0 as <-. cbn [s_blocks s_used s_limit s_fee].
              specialize (I3 _ _ E1). destruct I3 as (A1 & A2 & A3 & A4).
              rewrite A1, A2, A3, A4. rewrite !wadd64_mod. cbn [length map fst snd sumN fold_right].
              repeat split; auto. rewrite Nat2N.inj_succ. f_equal. lia.
           ++ simpl (false && _). cbv iota. apply I3. assumption.
    + injection E as <-. cbn [ac_slots workers_now]. unfold clear_gas. rewrite map_length.
      split; [assumption|]. split.
      * intros w0 Hw. simpl. split; [reflexivity|]. apply I2. assumption.
      * intros w0 sl0 E0. rewrite nth_error_map in E0.
        destruct (nth_error (ac_slots s1) w0) as [sl1|] eqn:E1; [|discriminate].
        simpl in E0. injection E0 as <-. unfold slot_ok. simpl.
        repeat split; try reflexivity. apply (I3 _ _ E1).
    + injection E as <-. cbn [ac_slots]. rewrite set_num_workers_resize, resize_length.
      split; [reflexivity|]. split.
      * intros w0 Hw. simpl (blocks_since_reset _ _). simpl (last_fee _ _).
        rewrite (proj2 (Nat.leb_le _ _) Hw). auto.
      * intros w0 sl0 E0.
        assert (Hw : (w0 < Nat.max n 1)%nat).
        { assert (X : nth_error (resize (Nat.max n 1) (ac_slots s1)) w0 <> None) by congruence.
          apply nth_error_Some in X. rewrite resize_length in X. assumption. }
        rewrite resize_nth in E0 by assumption.
        unfold slot_ok. cbn [blocks_since_reset last_fee].
        rewrite (proj2 (Nat.leb_gt (Nat.max n 1) w0)) by assumption.
        destruct (nth_error (ac_slots s1) w0) as [sl1|] eqn:E1.
        -- injection E0 as <-. apply I3. assumption.
        -- injection E0 as <-. apply nth_error_None in E1.
           destruct (I2 _ E1) as [B1 B2]. rewrite B1, B2. repeat split; reflexivity.
    + destruct (set_fee w f (ac_slots s1)) as [sl'|] eqn:Ei; [|discriminate].
      injection E as <-. cbn [ac_slots]. unfold set_fee in Ei.
      destruct (Nat.ltb_spec w (length (ac_slots s1))) as [L|L]; [|discriminate].
      injection Ei as <-. rewrite upd_nth_length. split; [assumption|]. split.
      * intros w0 Hw. simpl. destruct (Nat.eqb_spec w w0) as [->|ne]; [lia|]. apply I2. assumption.
      * intros w0 sl0 E0. rewrite upd_nth_spec in E0. unfold slot_ok.
        cbn [blocks_since_reset last_fee]. rewrite (Nat.eqb_sym w w0).
        destruct (Nat.eqb_spec w0 w) as [->|ne].
        -- destruct (nth_error (ac_slots s1) w) as [sl1|] eqn:E1; [|discriminate].
           simpl in E0. injection E0 as <-. specialize (I3 _ _ E1).
           destruct I3 as (A1 & A2 & A3 & A4). simpl. auto.
        -- apply I3. assumption.
    + injection E as <-. auto.
    + injection E as <-. auto.
    + injection E as <-. auto.
Qed.

(** ** Rewards *)
Definition msum (p : N -> bool) (c : counts) : N := sumN (map snd (filter (fun e => p (fst e)) c)).
Arguments sumN : simpl never.
Lemma sumN_cons a l : sumN (a :: l) = a + sumN l.
Proof. reflexivity. Qed.

Lemma msum_inc p c id :
  msum p (inc_count c id) mod 2 ^ 32 = (msum p c + if p id then 1 else 0) mod 2 ^ 32.
Proof.
  unfold msum. induction c as [|[i n] c IH]; simpl.
  - destruct (p id); reflexivity.
  - destruct (N.eqb_spec i id) as [->|ne]; simpl.
    + destruct (p id); simpl; rewrite ?sumN_cons.
      * unfold wadd32. rewrite N.add_mod_idemp_l by lia. f_equal. lia.
      * f_equal. lia.
    + destruct (p i); simpl; rewrite ?sumN_cons; [|assumption].
      rewrite <- N.add_assoc.
      rewrite <- (N.add_mod_idemp_r n (sumN _)) by lia.
      rewrite <- (N.add_mod_idemp_r n (sumN _ + _)) by lia.
      f_equal. f_equal. exact IH.
Qed.

Lemma inc_count_In c id x : In x (map fst (inc_count c id)) <-> x = id \/ In x (map fst c).
Proof.
  induction c as [|[i n] c IH]; simpl.
  - split; intros [H|H]; auto.
  - destruct (N.eqb_spec i id) as [->|ne]; simpl.
    + split; [tauto|]. intros [->|H]; auto.
    + rewrite IH. tauto.
Qed.

Lemma merge_fold cm order :
  Forall (fun e => snd e < 2 ^ 32) order ->
  let m := fold_left (merge_addr cm) order [] in
  bm_sorted m /\
  forall addr, bm_lookup addr m =
    if existsb (fun e => hits cm addr (fst e)) order
    then Some (msum (hits cm addr) order mod 2 ^ 32) else None.
Proof.
  induction order as [|e l IH] using rev_ind; intros HF m.
  - split; [constructor|]. reflexivity.
  - apply Forall_app in HF. destruct HF as [HF He]. inversion He as [|? ? He' _]; subst. clear He.
    specialize (IH HF). cbv zeta in IH. destruct IH as [IS IL].
    unfold m. rewrite fold_left_app. simpl.
    set (m0 := fold_left (merge_addr cm) l []) in *.
    assert (EX : forall addr, existsb (fun e => hits cm addr (fst e)) (l ++ [e]) =
              existsb (fun e => hits cm addr (fst e)) l || hits cm addr (fst e)).
    { intros. rewrite existsb_app. simpl. rewrite orb_false_r. reflexivity. }
    assert (MS : forall addr, msum (hits cm addr) (l ++ [e]) =
              msum (hits cm addr) l + if hits cm addr (fst e) then snd e else 0).
    { intros. unfold msum. rewrite filter_app, map_app, sumN_app. simpl.
      destruct (hits cm addr (fst e)); simpl; rewrite ?sumN_cons; unfold sumN; simpl; lia. }
    assert (MZ : forall addr, existsb (fun e => hits cm addr (fst e)) l = false -> msum (hits cm addr) l = 0).
    { intros addr. clear. unfold msum. induction l as [|e l IH]; simpl; [reflexivity|].
      intros H. apply orb_false_iff in H. destruct H as [H1 H2]. rewrite H1. auto. }
    unfold merge_addr.
    destruct (cm_authority cm (fst e)) as [a|] eqn:Ea.
    + assert (HH : forall addr, hits cm addr (fst e) = (addr =? a_addr a)).
      { intros. unfold hits. rewrite Ea. apply N.eqb_sym. }
      destruct (bm_lookup (a_addr a) m0) as [c|] eqn:El.
      * split; [apply bm_insert_sorted; assumption|]. intros addr.
        rewrite bm_lookup_insert by assumption. rewrite EX, MS, HH.
        destruct (N.eqb_spec addr (a_addr a)) as [->|ne].
        -- rewrite orb_true_r. rewrite IL in El.
           destruct (existsb _ l); [|discriminate]. injection El as <-.
           unfold wadd32. rewrite N.add_mod_idemp_l by lia. reflexivity.
        -- rewrite orb_false_r, N.add_0_r. apply IL.
      * split; [apply bm_insert_sorted; assumption|]. intros addr.
        rewrite bm_lookup_insert by assumption. rewrite EX, MS, HH.
        destruct (N.eqb_spec addr (a_addr a)) as [->|ne].
        -- rewrite orb_true_r. rewrite IL in El.
           destruct (existsb _ l) eqn:Eb; [discriminate|].
           rewrite (MZ _ Eb). rewrite N.add_0_l, N.mod_small by assumption. reflexivity.
        -- rewrite orb_false_r, N.add_0_r. apply IL.
    + assert (HH : forall addr, hits cm addr (fst e) = false).
      { intros. unfold hits. rewrite Ea. reflexivity. }
      split; [assumption|]. intros addr. rewrite EX, MS, HH, orb_false_r, N.add_0_r. apply IL.
Qed.

Lemma msum_perm p a b : Permutation a b -> msum p a = msum p b.
Proof.
  intros H. unfold msum. apply sumN_perm, Permutation_map.
  induction H; simpl.
  - constructor.
  - destruct (p (fst x)); [constructor|]; assumption.
  - destruct (p (fst x)), (p (fst y)); try reflexivity. constructor.
  - etransitivity; eassumption.
Qed.

Lemma counts_correct k ops s : acc_run (acc_new k) ops = Some s ->
  ac_committee s = committee_now (rev ops) /\
  Forall (fun e => snd e < 2 ^ 32) (ac_counts s) /\
  (forall x, In x (map fst (ac_counts s)) <-> In x (leaders_since_clear (rev ops))) /\
  (forall p, msum p (ac_counts s) mod 2 ^ 32 =
             count_if p (leaders_since_clear (rev ops)) mod 2 ^ 32).
Proof.
  revert s. induction ops as [|o ops IH] using rev_ind; intros s H.
  - simpl in H. injection H as <-. simpl. repeat split; auto; contradiction.
  - rewrite acc_run_app in H. destruct (acc_run (acc_new k) ops) as [s1|]; [|discriminate].
    specialize (IH s1 eq_refl). destruct IH as (I0 & I1 & I2 & I3).
    simpl in H. destruct (acc_step s1 o) as [s2|] eqn:E; [|discriminate].
    injection H as <-. rewrite rev_app_distr. cbn [rev app].
    destruct o as [w u l| |n|w f|id| |c]; cbn [acc_step] in E.
    + destruct (inc_block _ _ _ _); [|discriminate]. injection E as <-. auto.
    + injection E as <-. simpl. repeat split; auto; contradiction.
    + injection E as <-. auto.
    + destruct (set_fee _ _ _); [|discriminate]. injection E as <-. auto.
    + injection E as <-. cbn [ac_committee ac_counts leaders_since_clear committee_now].
      repeat split; auto.
      * revert I1. generalize (ac_counts s1). clear. intros c H.
        induction H as [|[i n] c Hn H IH]; simpl.
        -- repeat constructor.
        -- destruct (i =? id); constructor; auto. simpl. unfold wadd32. apply N.mod_lt. lia.
      * intros Hx. apply inc_count_In in Hx as [->|Hx]; [left; reflexivity|].
        right. apply I2. assumption.
      * intros [<-|Hx]; apply inc_count_In; [left; reflexivity|]. right. apply I2. assumption.
      * intros p. rewrite msum_inc. unfold count_if in *. simpl filter.
        rewrite <- N.add_mod_idemp_l, I3, N.add_mod_idemp_l by lia.
        destruct (p id); simpl length; f_equal; lia.
    + injection E as <-. simpl. repeat split; auto; contradiction.
    + injection E as <-. auto.
Qed.

Lemma existsb_perm {A} (p : A -> bool) a b : Permutation a b -> existsb p a = existsb p b.
Proof.
  intros H. destruct (existsb p a) eqn:E, (existsb p b) eqn:F; try reflexivity.
  - apply existsb_exists in E as (x & Hx & Px).
    assert (existsb p b = true) by (apply existsb_exists; exists x; split; [eapply Permutation_in; eassumption|assumption]).
    congruence.
  - apply existsb_exists in F as (x & Hx & Px).
    assert (existsb p a = true).
    { apply existsb_exists. exists x. split; [|assumption].
      eapply Permutation_in; [apply Permutation_sym; eassumption|assumption]. }
    congruence.
Qed.

Lemma count_if_pos p l : (0 < count_if p l) <-> exists x, In x l /\ p x = true.
Proof.
  unfold count_if. split.
  - intros H. destruct (filter p l) as [|x t] eqn:E; [simpl in H; lia|].
    exists x. apply filter_In. rewrite E. left. reflexivity.
  - intros (x & Hx & Px). assert (In x (filter p l)) by (apply filter_In; auto).
    destruct (filter p l); [contradiction|simpl; lia].
Qed.

Lemma withdrawals_correct k ops s cm order :
  acc_run (acc_new k) ops = Some s -> committee_now (rev ops) = Some cm ->
  Permutation order (ac_counts s) ->
  let m := address_counts (ac_committee s) order in
  bm_sorted m /\
  forall addr amount, In (addr, amount) m <->
    0 < count_if (hits cm addr) (leaders_since_clear (rev ops)) /\
    amount = count_if (hits cm addr) (leaders_since_clear (rev ops)) mod 2 ^ 32.
Proof.
  intros H Hc HP m. pose proof (counts_correct _ _ _ H) as (C0 & C1 & C2 & C3).
  unfold m. rewrite C0, Hc. unfold address_counts.
  assert (HF : Forall (fun e => snd e < 2 ^ 32) order).
  { eapply Permutation_Forall; [apply Permutation_sym; exact HP|assumption]. }
  pose proof (merge_fold cm order HF) as [MS ML]. split; [exact MS|].
  intros addr amount. rewrite <- bm_lookup_In by exact MS. rewrite ML.
  rewrite (existsb_perm _ _ _ HP). rewrite (msum_perm _ _ _ HP). rewrite C3.
  assert (EX : existsb (fun e => hits cm addr (fst e)) (ac_counts s) = true <->
               0 < count_if (hits cm addr) (leaders_since_clear (rev ops))).
  { rewrite existsb_exists, count_if_pos. split.
    - intros (e & He & Pe). exists (fst e). split; [|assumption]. apply C2. apply in_map. assumption.
    - intros (x & Hx & Px). apply C2 in Hx. apply in_map_iff in Hx as (e & <- & He). exists e. auto. }
  destruct (existsb _ _).
  - split.
    + intros E. injection E as <-. split; [|reflexivity]. apply EX. reflexivity.
    + intros [_ ->]. reflexivity.
  - split; [discriminate|]. intros [P _]. apply EX in P. discriminate.
Qed.

(** partition of events by address *)
Lemma partition_count (f : N -> option N) keys l : NoDup keys ->
  (forall x a, In x l -> f x = Some a -> In a keys) ->
  count_if (fun x => match f x with Some _ => true | None => false end) l =
  sumN (map (fun a => count_if (fun x => match f x with Some b => b =? a | None => false end) l) keys).
Proof.
  intros ND. induction l as [|x l IH]; intros H.
  - clear. unfold count_if. simpl. induction keys as [|a t IHk]; [reflexivity|].
    simpl. rewrite sumN_cons, <- IHk. reflexivity.
  - assert (IH' := IH (fun y a Hy => H y a (or_intror Hy))). clear IH.
    unfold count_if in *. simpl filter. destruct (f x) as [b|] eqn:E.
    + simpl length. rewrite Nat2N.inj_succ, IH'. clear IH'.
      specialize (H x b (or_introl eq_refl) E).
      apply in_split in H as (k1 & k2 & ->).
      rewrite !map_app, !sumN_app. simpl map. rewrite !sumN_cons.
      rewrite N.eqb_refl. simpl length. rewrite Nat2N.inj_succ.
      apply NoDup_remove_2 in ND. rewrite in_app_iff in ND.
      assert (EQ : forall ks, ~ In b ks ->
        map (fun a => N.of_nat (length (if b =? a
           then x :: filter (fun x0 => match f x0 with Some b0 => b0 =? a | None => false end) l
           else filter (fun x0 => match f x0 with Some b0 => b0 =? a | None => false end) l))) ks =
        map (fun a => N.of_nat (length (filter (fun x0 => match f x0 with Some b0 => b0 =? a | None => false end) l))) ks).
      { intros ks Hk. apply map_ext_in. intros a Ha.
        destruct (N.eqb_spec b a) as [->|]; [contradiction|reflexivity]. }
      rewrite !EQ by tauto. lia.
    + rewrite IH'. reflexivity.
Qed.

Lemma withdrawals_total k ops s cm order :
  acc_run (acc_new k) ops = Some s -> committee_now (rev ops) = Some cm ->
  Permutation order (ac_counts s) ->
  N.of_nat (length (leaders_since_clear (rev ops))) < 2 ^ 32 ->
  sumN (map snd (address_counts (ac_committee s) order)) =
  count_if (is_authority cm) (leaders_since_clear (rev ops)).
Proof.
  intros H Hc HP HL. pose proof (withdrawals_correct _ _ _ _ _ H Hc HP) as [MS MI].
  set (m := address_counts (ac_committee s) order) in *.
  set (ev := leaders_since_clear (rev ops)) in *.
  set (f := fun x => option_map a_addr (cm_authority cm x)).
  assert (SM : forall p, count_if p ev < 2 ^ 32).
  { intros p. unfold count_if. pose proof (filter_len_le p ev). lia. }
  assert (E1 : count_if (is_authority cm) ev =
    count_if (fun x => match f x with Some _ => true | None => false end) ev).
  { unfold count_if. f_equal. f_equal. apply filter_ext. intros x. unfold is_authority, f, cm_authority.
    destruct (bm_lookup x (cm_by_id cm)); reflexivity. }
  rewrite E1, (partition_count f (bm_keys m)).
  - f_equal. unfold bm_keys. rewrite map_map. apply map_ext_in. intros [a v] Hin. simpl.
    apply MI in Hin as [_ ->]. rewrite N.mod_small by apply SM.
    unfold count_if. f_equal. f_equal. apply filter_ext. intros x. unfold hits, f.
    destruct (cm_authority cm x); reflexivity.
  - apply bm_NoDup. exact MS.
  - intros x a Hx Hf. unfold f in Hf. destruct (cm_authority cm x) as [au|] eqn:Ea; [|discriminate].
    injection Hf as <-. apply in_map_iff.
    exists (a_addr au, count_if (hits cm (a_addr au)) ev mod 2 ^ 32). split; [reflexivity|].
    apply MI. split; [|reflexivity]. apply count_if_pos. exists x. split; [assumption|].
    unfold hits. rewrite Ea. apply N.eqb_refl.
Qed.

(** ** Close / entry *)
Lemma adjust_rows_spec es : forall acc wid, rows_u64 es -> slots_u64 acc ->
  (wid + length es <= length acc)%nat ->
  exists acc', adjust_rows acc wid es = Some acc' /\ length acc' = length acc /\
    (forall w, (w < wid)%nat -> nth_error acc' w = nth_error acc w) /\
    (forall i e, nth_error es i = Some e ->
       next_fee (we_config e) (s_fee (slot_at acc (wid + i))) (s_used (slot_at acc (wid + i))) =
       Some (s_fee (slot_at acc' (wid + i)))).
Proof.
  induction es as [|e es IH]; intros acc wid HR HS HL; simpl.
  - exists acc. repeat split; auto. intros [|i] e E; discriminate.
  - inversion HR as [|? ? He HR']; subst. simpl in HL.
    destruct (nth_error acc wid) as [s|] eqn:Es.
    2:{ apply nth_error_None in Es. lia. }
    assert (Hs : s_fee s <= u64max).
    { unfold slots_u64 in HS. rewrite Forall_forall in HS. apply HS. eapply nth_error_In. eassumption. }
    destruct (next_fee_total (we_config e) (s_fee s) (s_used s) Hs) as (f & Ef & Hf & _).
    { intros f Hf. rewrite Hf in He. exact He. }
    rewrite Ef. unfold set_fee. rewrite (proj2 (Nat.ltb_lt wid (length acc))) by lia.
    match goal with |- context [upd_nth wid ?g acc] => set (acc1 := upd_nth wid g acc) end.
    assert (HS1 : slots_u64 acc1).
    { unfold slots_u64. apply Forall_forall. intros x Hx. apply In_nth_error in Hx as (n & Hn).
      unfold acc1 in Hn. rewrite upd_nth_spec in Hn.
      destruct (Nat.eqb n wid).
      - destruct (nth_error acc n); [|discriminate]. simpl in Hn. injection Hn as <-. exact Hf.
      - unfold slots_u64 in HS. rewrite Forall_forall in HS. apply HS. eapply nth_error_In. eassumption. }
    destruct (IH acc1 (S wid) HR' HS1) as (acc' & E1 & L1 & P1 & Q1).
    { unfold acc1. rewrite upd_nth_length. simpl. lia. }
    exists acc'. split; [assumption|]. split; [rewrite L1; apply upd_nth_length|]. split.
    + intros w Hw. rewrite P1 by lia. unfold acc1. rewrite upd_nth_spec.
      destruct (Nat.eqb_spec w wid); [lia|reflexivity].
    + intros [|i] e0 E0; simpl in E0.
      * injection E0 as <-. rewrite Nat.add_0_r. unfold slot_at. rewrite Es.
        rewrite P1 by lia. unfold acc1. rewrite upd_nth_spec, Nat.eqb_refl, Es. simpl. exact Ef.
      * specialize (Q1 _ _ E0). replace (S wid + i)%nat with (wid + S i)%nat in Q1 by lia.
        rewrite <- Q1. unfold slot_at, acc1. rewrite upd_nth_spec.
        destruct (Nat.eqb_spec (wid + S i) wid); [lia|reflexivity].
Qed.

Lemma apply_fees_spec fees : forall acc wid, (wid + length fees <= length acc)%nat ->
  exists acc', apply_fees acc wid fees = Some acc' /\ length acc' = length acc /\
    (forall w, (w < wid)%nat -> nth_error acc' w = nth_error acc w) /\
    (forall i f, nth_error fees i = Some f -> s_fee (slot_at acc' (wid + i)) = f) /\
    (forall w s', nth_error acc' w = Some s' -> exists s, nth_error acc w = Some s /\
        s_blocks s' = s_blocks s /\ s_used s' = s_used s /\ s_limit s' = s_limit s).
Proof.
  induction fees as [|f fees IH]; intros acc wid HL; simpl.
  - exists acc. repeat split; auto.
    + intros [|i] f E; discriminate.
    + intros w s' E. exists s'. auto.
  - simpl in HL. unfold set_fee. rewrite (proj2 (Nat.ltb_lt wid (length acc))) by lia.
    match goal with |- context [upd_nth wid ?g acc] => set (acc1 := upd_nth wid g acc) end.
    destruct (IH acc1 (S wid)) as (acc' & E1 & L1 & P1 & Q1 & R1).
    { unfold acc1. rewrite upd_nth_length. simpl. lia. }
    exists acc'. split; [assumption|]. split; [rewrite L1; apply upd_nth_length|]. split; [|split].
    + intros w Hw. rewrite P1 by lia. unfold acc1. rewrite upd_nth_spec.
      destruct (Nat.eqb_spec w wid); [lia|reflexivity].
    + intros [|i] f0 E0; simpl in E0.
      * injection E0 as <-. rewrite Nat.add_0_r. unfold slot_at. rewrite P1 by lia.
        unfold acc1. rewrite upd_nth_spec, Nat.eqb_refl.
        destruct (nth_error acc wid) eqn:Es; [reflexivity|]. apply nth_error_None in Es. lia.
      * specialize (Q1 _ _ E0). replace (S wid + i)%nat with (wid + S i)%nat in Q1 by lia. exact Q1.
    + intros w s' E. destruct (R1 _ _ E) as (s & Es & A & B & C). unfold acc1 in Es.
      rewrite upd_nth_spec in Es. destruct (Nat.eqb_spec w wid) as [->|ne].
      * destruct (nth_error acc wid) as [s0|]; [|discriminate]. simpl in Es. injection Es as <-.
        exists s0. simpl in A, B, C. auto.
      * exists s. auto.
Qed.

(** the fee the closing block computes for row [i] *)
Lemma record_spec acc own gas es : forall wid, rows_u64 es -> slots_u64 acc ->
  exists es', close_block_record acc own gas wid es = Some es' /\ length es' = length es /\
    forall i e, nth_error es i = Some e ->
      exists e', nth_error es' i = Some e' /\ we_config e' = we_config e /\
        (forall f, we_config e = Static f -> e' = e) /\
        entry_fee e' = next_fee (we_config e) (s_fee (slot_at acc (wid + i)))
           (if Nat.eqb (wid + i) own
            then N.min u64max (s_used (slot_at acc (wid + i)) + gas)
            else s_used (slot_at acc (wid + i))).
Proof.
  induction es as [|e es IH]; intros wid HR HS; simpl.
  - exists []. repeat split; auto. intros [|i] e E; discriminate.
  - inversion HR as [|? ? He HR']; subst.
    destruct (IH (S wid) HR' HS) as (es1 & E1 & L1 & P1). rewrite E1.
    unfold recorded_fee. destruct (we_config e) as [t|f] eqn:Ec.
    + assert (Hpair : match nth_error acc wid with
                      | Some s => (s_fee s, s_used s) | None => (MIN_FEE, 0) end =
                      (s_fee (slot_at acc wid), s_used (slot_at acc wid))).
      { unfold slot_at. destruct (nth_error acc wid); reflexivity. }
      assert (Hs : s_fee (slot_at acc wid) <= u64max).
      { unfold slot_at. destruct (nth_error acc wid) eqn:En.
        - unfold slots_u64 in HS. rewrite Forall_forall in HS. apply HS. eapply nth_error_In. eassumption.
        - simpl. unfold MIN_FEE, u64max. lia. }
      rewrite Hpair. cbv beta iota zeta.
      set (used := if Nat.eqb wid own then N.min u64max (s_used (slot_at acc wid) + gas)
                   else s_used (slot_at acc wid)).
      destruct (next_fee_total (Eip1559 t) (s_fee (slot_at acc wid)) used Hs ltac:(discriminate))
        as (f & Ef & Hf & Hm).
      rewrite Ef. eexists. split; [reflexivity|]. split; [simpl; congruence|].
      intros [|i] e0 E0; simpl in E0.
      * injection E0 as <-. eexists. split; [reflexivity|]. simpl. split; [congruence|].
        split; [congruence|]. rewrite Nat.add_0_r. fold used. rewrite Ec, Ef.
        unfold entry_fee. simpl. rewrite (proj2 (N.leb_le f u64max)) by assumption.
        specialize (Hm t eq_refl). f_equal. lia.
      * destruct (P1 _ _ E0) as (e' & A & B & C & D). exists e'. split; [exact A|].
        split; [assumption|]. split; [assumption|].
        replace (wid + S i)%nat with (S wid + i)%nat by lia. exact D.
    + eexists. split; [reflexivity|]. split; [simpl; congruence|].
      intros [|i] e0 E0; simpl in E0.
      * injection E0 as <-. exists e. split; [reflexivity|]. split; [reflexivity|].
        split; [reflexivity|]. rewrite Ec. unfold entry_fee. rewrite Ec. reflexivity.
      * destruct (P1 _ _ E0) as (e' & A & B & C & D). exists e'. split; [exact A|].
        split; [assumption|]. split; [assumption|].
        replace (wid + S i)%nat with (S wid + i)%nat by lia. exact D.
Qed.

Lemma entry_fees_spec es fs : entry_fees es = Some fs <->
  length fs = length es /\
  forall i e, nth_error es i = Some e -> entry_fee e = nth_error fs i.
Proof.
  revert fs; induction es as [|e es IH]; intros fs; simpl.
  - split.
    + intros E. injection E as <-. split; [reflexivity|]. intros [|i] ? H; discriminate.
    + intros [L _]. destruct fs; [reflexivity|discriminate].
  - split.
    + intros E. destruct (entry_fee e) as [f|] eqn:Ef; [|discriminate].
      destruct (entry_fees es) as [l|] eqn:El; [|discriminate]. injection E as <-.
      destruct (proj1 (IH l) eq_refl) as [L P]. split; [simpl; congruence|].
      intros [|i] e0 E0; simpl in *; [injection E0 as <-; assumption|]. apply P. assumption.
    + intros [L P]. destruct fs as [|f fs]; [discriminate|].
      rewrite (P 0%nat e eq_refl). simpl.
      assert (X : entry_fees es = Some fs).
      { apply IH. split; [simpl in L; congruence|]. intros i e0 E0. apply (P (S i) e0 E0). }
      rewrite X. reflexivity.
Qed.

Lemma slot_at_resize n acc w : (w < Nat.max n 1)%nat ->
  slot_at (set_num_workers n acc) w = slot_at acc w.
Proof.
  intros H. rewrite set_num_workers_resize. unfold slot_at. rewrite resize_nth by assumption.
  destruct (nth_error acc w); reflexivity.
Qed.

Lemma resize_u64 n acc : slots_u64 acc -> slots_u64 (resize n acc).
Proof.
  unfold slots_u64, resize. intros H. apply Forall_app. split.
  - rewrite <- (firstn_skipn n acc) in H. apply Forall_app in H. tauto.
  - apply Forall_forall. intros x Hx. apply repeat_spec in Hx. subst x. simpl. unfold MIN_FEE, u64max. lia.
Qed.

Lemma close_matches_entry acc own gas limit acc1 es acc2 :
  rows_u64 es -> slots_u64 acc -> es <> [] ->
  s_used (slot_at acc own) + gas <= u64max ->
  inc_block acc own gas limit = Some acc1 ->
  exists es' accA accE,
    close_block_record acc own gas 0 es = Some es' /\
    map we_config es' = map we_config es /\
    adjust_base_fees acc1 es = Some accA /\
    enter_epoch acc2 es' = Some accE /\
    length accE = length es /\
    map s_fee accE = map s_fee accA.
Proof.
  intros HR HS HN HO HI.
  destruct (record_spec acc own gas es 0 HR HS) as (es' & E1 & L1 & P1).
  assert (HS1 : slots_u64 acc1).
  { unfold inc_block in HI. destruct (gas =? 0); [injection HI as <-; assumption|].
    destruct (_ <? _)%nat; [|discriminate]. injection HI as <-.
    unfold slots_u64. apply Forall_forall. intros x Hx. apply In_nth_error in Hx as (n & Hn).
    rewrite upd_nth_spec in Hn. unfold slots_u64 in HS. rewrite Forall_forall in HS.
    destruct (Nat.eqb n own).
    - destruct (nth_error acc n) as [y|] eqn:Ey; [|discriminate]. simpl in Hn. injection Hn as <-.
      simpl. apply HS. eapply nth_error_In. eassumption.
    - apply HS. eapply nth_error_In. eassumption. }
  assert (HU : forall w, s_fee (slot_at acc1 w) = s_fee (slot_at acc w) /\
             s_used (slot_at acc1 w) = if Nat.eqb w own then s_used (slot_at acc w) + gas
                                       else s_used (slot_at acc w)).
  { intros w. unfold inc_block in HI. destruct (N.eqb_spec gas 0) as [->|nz].
    - injection HI as <-. split; [reflexivity|]. destruct (Nat.eqb w own); lia.
    - destruct (Nat.ltb_spec own (length acc)) as [L|L]; [|discriminate]. injection HI as <-.
      unfold slot_at in *. rewrite upd_nth_spec. destruct (Nat.eqb_spec w own) as [->|ne]; [|auto].
      destruct (nth_error acc own) as [y|] eqn:Ey.
      + simpl. split; [reflexivity|]. unfold wadd64. apply N.mod_small. unfold u64max in HO. lia.
      + apply nth_error_None in Ey. lia. }
  assert (LN : (0 < length es)%nat) by (destruct es; [congruence|simpl; lia]).
  assert (HB : slots_u64 (set_num_workers (length es) acc1)).
  { rewrite set_num_workers_resize. apply resize_u64. assumption. }
  destruct (adjust_rows_spec es (set_num_workers (length es) acc1) 0 HR HB) as (accA & E2 & L2 & _ & Q2).
  { rewrite set_num_workers_resize, resize_length. lia. }
  set (fs := map s_fee accA).
  assert (LA : length accA = length es).
  { rewrite L2, set_num_workers_resize, resize_length. lia. }
  assert (EF : entry_fees es' = Some fs).
  { apply entry_fees_spec. split; [unfold fs; rewrite map_length; congruence|].
    intros i e' Ei. unfold fs. rewrite nth_error_map.
    assert (Hi : (i < length es)%nat).
    { rewrite <- L1. apply nth_error_Some. congruence. }
    destruct (nth_error es i) as [e|] eqn:Ee.
    2:{ apply nth_error_None in Ee. lia. }
    destruct (P1 _ _ Ee) as (e2 & A & B & C & D). assert (e2 = e') by congruence. subst e2.
    rewrite D. specialize (Q2 _ _ Ee). simpl in Q2 |- *.
    rewrite slot_at_resize in Q2 by lia. destruct (HU i) as [U1 U2].
    rewrite U1, U2 in Q2.
    assert (EQ : (if Nat.eqb i own then N.min u64max (s_used (slot_at acc i) + gas) else s_used (slot_at acc i))
               = (if Nat.eqb i own then s_used (slot_at acc i) + gas else s_used (slot_at acc i))).
    { destruct (Nat.eqb_spec i own) as [->|]; [|reflexivity]. lia. }
    rewrite EQ, Q2. unfold slot_at. destruct (nth_error accA i) eqn:EA; [reflexivity|].
    apply nth_error_None in EA. lia. }
  destruct (apply_fees_spec fs (set_num_workers (length es') acc2) 0) as (accE & E3 & L3 & _ & Q3 & _).
  { rewrite set_num_workers_resize, resize_length. unfold fs. rewrite map_length. lia. }
  exists es', accA, accE. split; [assumption|].
  assert (LE : length accE = length es).
  { rewrite L3, set_num_workers_resize, resize_length. lia. }
  split.
  { apply nth_error_ext. intros i. rewrite !nth_error_map.
    destruct (nth_error es i) as [e|] eqn:Ee.
    - destruct (P1 _ _ Ee) as (e2 & A & B & _). rewrite A. simpl. congruence.
    - apply nth_error_None in Ee. rewrite (proj2 (nth_error_None es' i)) by lia. reflexivity. }
  split; [assumption|]. split.
  { unfold enter_epoch. destruct es' as [|e0 es0]; [simpl in L1; lia|]. rewrite EF. exact E3. }
  split; [assumption|].
  apply nth_error_ext. intros i. fold fs. rewrite nth_error_map.
  destruct (nth_error fs i) as [f|] eqn:Ef.
  - specialize (Q3 _ _ Ef). simpl in Q3. unfold slot_at in Q3.
    assert (i < length fs)%nat by (apply nth_error_Some; congruence).
    unfold fs in H. rewrite map_length in H.
    destruct (nth_error accE i) eqn:Ei; [simpl; congruence|]. apply nth_error_None in Ei. lia.
  - apply nth_error_None in Ef. unfold fs in Ef. rewrite map_length in Ef.
    rewrite (proj2 (nth_error_None accE i)) by lia. reflexivity.
Qed.

(** ** Restart *)
Lemma catchup_live bs : forall acc, Forall (fun b => eb_worker b < 2 ^ 16) bs ->
  fold_blocks acc (map block_of bs) = live_batches acc bs.
Proof.
  induction bs as [|b bs IH]; intros acc H; [reflexivity|].
  inversion H as [|? ? Hb Hr]; subst. simpl. rewrite worker_roundtrip by assumption.
  destruct (inc_block _ _ _ _); [apply IH; assumption|reflexivity].
Qed.

Lemma inc_block_length acc w u l acc' : inc_block acc w u l = Some acc' -> length acc' = length acc.
Proof.
  unfold inc_block. destruct (u =? 0); [intros E; injection E as <-; reflexivity|].
  destruct (_ <? _)%nat; [|discriminate]. intros E. injection E as <-. apply upd_nth_length.
Qed.

Lemma live_total bs : forall acc,
  Forall (fun b => (N.to_nat (eb_worker b) < length acc)%nat) bs ->
  exists acc', live_batches acc bs = Some acc'.
Proof.
  induction bs as [|b bs IH]; intros acc H; simpl; [eauto|].
  inversion H as [|? ? Hb Hr]; subst.
  destruct (inc_block acc (N.to_nat (eb_worker b)) (eb_used b) (eb_limit b)) as [a1|] eqn:E.
  - apply IH. rewrite (inc_block_length _ _ _ _ _ E). assumption.
  - unfold inc_block in E. destruct (_ =? 0); [discriminate|].
    rewrite (proj2 (Nat.ltb_lt _ _) Hb) in E. discriminate.
Qed.

Lemma catchup_correct acc n bs :
  Forall (fun b => eb_worker b < 2 ^ 16) bs ->
  Forall (fun b => (N.to_nat (eb_worker b) < Nat.max n 1)%nat) bs ->
  exists acc', catchup acc n (map block_of bs) = Some acc' /\
               live_batches (set_num_workers n acc) bs = Some acc'.
Proof.
  intros H1 H2. unfold catchup.
  assert (L : length (set_num_workers n acc) = Nat.max n 1).
  { rewrite set_num_workers_resize. apply resize_length. }
  destruct (live_total bs (set_num_workers n acc)) as (acc' & E).
  { rewrite L. assumption. }
  exists acc'. split; [|assumption].
  rewrite (proj2 (forallb_forall _ (map block_of bs))).
  - rewrite catchup_live by assumption. exact E.
  - intros h Hh. apply in_map_iff in Hh as (b & <- & Hb). simpl.
    rewrite Forall_forall in H1, H2. rewrite worker_roundtrip by (apply H1; assumption).
    rewrite L. apply Nat.ltb_lt. apply H2. assumption.
Qed.
