(** C17 - C20: encodings, base fees, gas and reward accounting. *)
From Verif Require Import Util Types CommitteeModel CommitteeProofs GasModel GasSpec GasProofs Props_Committee.
Local Open Scope N_scope.

(** ** C17 *)
Theorem C17_nonce_roundtrip : forall epoch round, epoch < 2 ^ 32 -> round < 2 ^ 32 ->
  deconstruct_nonce (nonce epoch round) = (epoch, round) /\ nonce epoch round < 2 ^ 64.
Proof.
  intros e r He Hr. split; [apply nonce_roundtrip; assumption|].
  rewrite nonce_val by assumption. lia.
Qed.
Theorem C17_nonce_order : forall e1 r1 e2 r2,
  e1 < 2 ^ 32 -> r1 < 2 ^ 32 -> e2 < 2 ^ 32 -> r2 < 2 ^ 32 ->
  (nonce e1 r1 < nonce e2 r2 <-> e1 < e2 \/ e1 = e2 /\ r1 < r2).
Proof. exact nonce_order. Qed.
(** every batch index (even one whose shift overflows 64 bits) *)
Theorem C17_worker_id_roundtrip : forall batch_index worker_id, worker_id < 2 ^ 16 ->
  worker_id_of (difficulty batch_index worker_id) = worker_id.
Proof. exact worker_roundtrip. Qed.
Theorem C17_first_batch : forall batch_index worker_id, batch_index < 2 ^ 48 -> worker_id < 2 ^ 16 ->
  (first_batch (difficulty batch_index worker_id) = true <-> batch_index = 0).
Proof. exact first_batch_iff. Qed.
Theorem C17_difficulty_injective : forall i w i' w', i < 2 ^ 48 -> w < 2 ^ 16 -> i' < 2 ^ 48 -> w' < 2 ^ 16 ->
  difficulty i w = difficulty i' w' -> i = i' /\ w = w'.
Proof. intros i w i' w' H1 H2 H3 H4. rewrite !difficulty_val by assumption. lia. Qed.
Example C17_ex : deconstruct_nonce (nonce 5 4294967295) = (5, 4294967295) /\
  worker_id_of (difficulty 7 65535) = 65535.
Proof. vm_compute. auto. Qed.

(** ** C18.  [None] would be an arithmetic overflow (or a division by zero) somewhere in the
    computation.  [c] is the current fee after the documented clamp. *)
Theorem C18_no_overflow_and_floor : forall cur used target,
  cur <= u64max -> used <= u64max -> target <= u64max ->
  exists fee, next_fee_1559 cur used target = Some fee /\ 7 <= fee <= u64max.
Proof.
  intros cur used t H1 H2 H3.
  destruct (next_fee_total (Eip1559 t) cur used H1 ltac:(discriminate)) as (f & A & B & C).
  exists f. split; [exact A|]. split; [apply (C t eq_refl)|exact B].
Qed.

Theorem C18_step_bounds : forall cur used target fee,
  0 < target -> next_fee_1559 cur used target = Some fee ->
  let c := N.min cur (u64max - u64max / 8) in
  let t := N.min target (2 ^ 63 - 1) in
  (* at most one eighth (rounded up, but at least 1) up, at most one eighth down *)
  fee <= N.max 7 (c + N.max 1 ((c + 7) / 8)) /\ c - c / 8 <= fee /\
  (* strictly rounded down whenever the target is below 2^63 *)
  (target < 2 ^ 63 -> fee <= N.max 7 (c + N.max 1 (c / 8))) /\
  (* direction *)
  (used = t -> fee = N.max 7 c) /\
  (t < used -> c + 1 <= fee) /\
  (used < t -> fee <= N.max 7 c).
Proof.
  intros cur used t0 fee H0 E. cbv zeta. rewrite next_fee_1559_val in E by assumption.
  injection E as <-. fold SAFE_MAX.
  assert (TT : N.min u64max (t0 * 2) / 2 = N.min t0 (2 ^ 63 - 1)) by (unfold u64max; lia).
  pose proof (calc_next_val_bounds (N.min used (N.min u64max (t0 * 2))) t0 (N.min cur SAFE_MAX)
                ltac:(lia) ltac:(lia) ltac:(lia)) as (A & B & C & D & F).
  pose proof (fun h => calc_next_val_upper (N.min used (N.min u64max (t0 * 2))) t0 (N.min cur SAFE_MAX)
                ltac:(lia) h ltac:(lia)) as G.
  rewrite TT in *. revert A B C D F G.
  generalize (calc_next_val (N.min used (N.min u64max (t0 * 2))) (N.min u64max (t0 * 2)) (N.min cur SAFE_MAX)).
  generalize (N.min cur SAFE_MAX). intros c v A B C D F G. unfold MIN_FEE, u64max in *.
  repeat split; intros; lia.
Qed.

Theorem C18_monotone_in_usage : forall cur used used' target fee fee',
  used <= used' ->
  next_fee_1559 cur used target = Some fee -> next_fee_1559 cur used' target = Some fee' ->
  fee <= fee'.
Proof.
  intros cur u u' t f f' H E E'. destruct (N.eq_dec t 0) as [->|nz].
  - unfold next_fee_1559 in *. simpl in *. injection E as <-. injection E' as <-. lia.
  - rewrite next_fee_1559_val in E, E' by lia. injection E as <-. injection E' as <-.
    pose proof (calc_next_val_mono (N.min u (N.min u64max (t * 2))) (N.min u' (N.min u64max (t * 2)))
       t (N.min cur SAFE_MAX) ltac:(lia) ltac:(lia)). lia.
Qed.
Theorem C18_zero_target : forall cur used, next_fee_1559 cur used 0 = Some (N.max cur 7).
Proof. reflexivity. Qed.

(** The doc comment at gas_accumulator.rs 463-466 says the rise never exceeds [base_fee / 8] in
    the saturating regime either; with target_gas = u64::MAX it exceeds it (by rounding): *)
Example C18_rounding_up_witness :
  exists fee, next_fee_1559 (2 ^ 63 - 1) u64max u64max = Some fee /\
    fee = (2 ^ 63 - 1) + ((2 ^ 63 - 1) / 8 + 1).
Proof. eexists. split; [vm_compute; reflexivity|reflexivity]. Qed.
Example C18_ex : next_fee_1559 1000 200 100 = Some 1125 /\ next_fee_1559 1000 0 100 = Some 875 /\
  next_fee_1559 7 0 100 = Some 7 /\ next_fee_1559 u64max u64max 1 = Some 18158513697557839872.
Proof. vm_compute. auto. Qed.

(** ** C19.  [acc] is the accumulator just before the epoch's closing block is accounted,
    [own]/[gas] the worker and gas of that block, [acc1] the accumulator after it.  The fee the
    closing block records on chain and a later epoch entry reads (from any accumulator [acc2],
    e.g. a freshly restarted one) is the fee the live node computes at close. *)
Theorem C19_recorded_fee_is_entered_fee : forall acc own gas limit acc1 es acc2,
  rows_u64 es -> slots_u64 acc -> es <> [] ->
  s_used (slot_at acc own) + gas <= u64max ->
  inc_block acc own gas limit = Some acc1 ->
  exists es' accA accE,
    close_block_record acc own gas 0 es = Some es' /\
    map we_config es' = map we_config es /\
    adjust_base_fees acc1 es = Some accA /\
    enter_epoch acc2 es' = Some accE /\
    length accE = length es /\
    map s_fee accE = map s_fee accA.
Proof. exact close_matches_entry. Qed.

(** and what each worker gets is exactly the fee formula over its totals *)
Theorem C19_entry_fee_value : forall acc own gas es,
  rows_u64 es -> slots_u64 acc ->
  exists es', close_block_record acc own gas 0 es = Some es' /\ length es' = length es /\
    forall i e, nth_error es i = Some e ->
      exists e', nth_error es' i = Some e' /\ we_config e' = we_config e /\
        (forall f, we_config e = Static f -> e' = e) /\
        entry_fee e' = next_fee (we_config e) (s_fee (slot_at acc i))
           (if Nat.eqb i own then N.min u64max (s_used (slot_at acc i) + gas)
            else s_used (slot_at acc i)).
Proof. intros. exact (record_spec acc own gas es 0 H H0). Qed.

Theorem C19_static_ignores_data : forall f data data',
  entry_fee {| we_config := Static f; we_data := data |} = Some f /\
  entry_fee {| we_config := Static f; we_data := data |} =
  entry_fee {| we_config := Static f; we_data := data' |}.
Proof. intros. split; reflexivity. Qed.

Theorem C19_wide_word_is_error : forall t data,
  (u64max < data -> entry_fee {| we_config := Eip1559 t; we_data := data |} = None) /\
  (data <= u64max -> entry_fee {| we_config := Eip1559 t; we_data := data |} = Some (N.max data 7)).
Proof.
  intros t d. unfold entry_fee. simpl. split; intros H.
  - rewrite (proj2 (N.leb_gt d u64max)) by assumption. reflexivity.
  - rewrite (proj2 (N.leb_le d u64max)) by assumption. reflexivity.
Qed.

Definition ex_acc : list slot :=
  [ {| s_blocks := 3; s_used := 500; s_limit := 90; s_fee := 1000 |};
    {| s_blocks := 1; s_used := 10; s_limit := 30; s_fee := 77 |} ].
Definition ex_rows : list wentry :=
  [ {| we_config := Eip1559 100; we_data := 2 ^ 100 |};
    {| we_config := Static 42; we_data := 2 ^ 170 |};
    {| we_config := Eip1559 5; we_data := 0 |} ].
Example C19_ex :
  rows_u64 ex_rows /\ slots_u64 ex_acc /\
  inc_block ex_acc 0 21000 30000000 <> None /\
  option_map (map s_fee) (match close_block_record ex_acc 0 21000 0 ex_rows with
    | Some es' => enter_epoch (repeat slot0 1) es' | None => None end) = Some [1125; 42; 7].
Proof.
  split; [repeat constructor; vm_compute; discriminate|].
  split; [repeat constructor; vm_compute; discriminate|].
  split; [vm_compute; discriminate|]. vm_compute. reflexivity.
Qed.

(** ** C20 *)
Theorem C20_worker_totals_exact : forall k ops s, acc_run (acc_new k) ops = Some s ->
  length (ac_slots s) = workers_now k (rev ops) /\
  forall w sl, nth_error (ac_slots s) w = Some sl ->
    s_blocks sl = N.of_nat (length (blocks_since_reset w (rev ops))) mod 2 ^ 64 /\
    s_used sl = sumN (map fst (blocks_since_reset w (rev ops))) mod 2 ^ 64 /\
    s_limit sl = sumN (map snd (blocks_since_reset w (rev ops))) mod 2 ^ 64 /\
    s_fee sl = last_fee w (rev ops).
Proof.
  intros k ops s H. pose proof (slots_correct k ops s H) as (A & _ & B). split; [exact A|exact B].
Qed.
(** growing keeps every existing slot, shrinking drops only the removed ones *)
Theorem C20_resize_keeps_slots : forall n acc w, (w < Nat.max n 1)%nat -> (w < length acc)%nat ->
  nth_error (set_num_workers n acc) w = nth_error acc w /\
  length (set_num_workers n acc) = Nat.max n 1.
Proof.
  intros n acc w H1 H2. rewrite set_num_workers_resize, resize_length. split; [|reflexivity].
  rewrite resize_nth by assumption. destruct (nth_error acc w) eqn:E; [reflexivity|].
  apply nth_error_None in E. lia.
Qed.
(** only out-of-range ids can stop the accumulator *)
Theorem C20_inc_block_total : forall acc w used limit,
  inc_block acc w used limit = None <-> used <> 0 /\ (length acc <= w)%nat.
Proof.
  intros acc w u l. unfold inc_block. destruct (N.eqb_spec u 0) as [->|nz].
  - split; [discriminate|intros [H _]; congruence].
  - destruct (Nat.ltb_spec w (length acc)) as [L|L].
    + split; [discriminate|lia].
    + split; auto.
Qed.
(** withdrawals, for every iteration order of the leader-count map *)
Theorem C20_withdrawals_exact : forall k ops s cm order,
  acc_run (acc_new k) ops = Some s -> committee_now (rev ops) = Some cm ->
  Permutation order (ac_counts s) ->
  let m := address_counts (ac_committee s) order in
  StronglySorted N.lt (map fst m) /\
  forall addr amount, In (addr, amount) m <->
    0 < count_if (hits cm addr) (leaders_since_clear (rev ops)) /\
    amount = count_if (hits cm addr) (leaders_since_clear (rev ops)) mod 2 ^ 32.
Proof. exact withdrawals_correct. Qed.
Theorem C20_withdrawals_sum : forall k ops s cm order,
  acc_run (acc_new k) ops = Some s -> committee_now (rev ops) = Some cm ->
  Permutation order (ac_counts s) ->
  N.of_nat (length (leaders_since_clear (rev ops))) < 2 ^ 32 ->
  sumN (map snd (address_counts (ac_committee s) order)) =
  count_if (is_authority cm) (leaders_since_clear (rev ops)).
Proof. exact withdrawals_total. Qed.
(** a node restarted mid-epoch rebuilds, from the sealed headers alone, exactly the totals the
    live node accumulated while executing the same batches *)
Theorem C20_restart_rebuilds_totals : forall acc n bs,
  Forall (fun b => eb_worker b < 2 ^ 16) bs ->
  Forall (fun b => (N.to_nat (eb_worker b) < Nat.max n 1)%nat) bs ->
  exists acc', catchup acc n (map block_of bs) = Some acc' /\
               live_batches (set_num_workers n acc) bs = Some acc'.
Proof. exact catchup_correct. Qed.

Definition ex_ops : list acc_op :=
  [OpBlock 0 10 100; OpLeader 4; OpClear; OpResize 3; OpBlock 2 5 50; OpBlock 0 0 9;
   OpBlock 2 6 60; OpSetFee 1 99; OpLeader (ex_idof 11); OpLeader (ex_idof 12); OpLeader (ex_idof 11); OpLeader 1].
Example C20_ex : option_map (fun s => (ac_slots s, ac_counts s)) (acc_run (acc_new 1) ex_ops) =
  Some ([slot0; {| s_blocks := 0; s_used := 0; s_limit := 0; s_fee := 99 |};
         {| s_blocks := 2; s_used := 11; s_limit := 110; s_fee := 7 |}],
        [(ex_idof 11, 2); (ex_idof 12, 1); (1, 1)]).
Proof. vm_compute. reflexivity. Qed.
