(** Model of the per-epoch gas / fee / reward accounting.
    Sources: crates/types/src/gas_accumulator.rs, crates/types/src/primary/header.rs,
    crates/types/src/helpers.rs, crates/tn-reth/src/evm/block.rs,
    crates/tn-reth/src/evm/config.rs, crates/node/src/manager/node.rs,
    crates/node/src/manager/node/run_epoch.rs.
    Machine integers are [N] with the wrap / saturation / overflow check written out. *)
From Verif Require Import Util Types CommitteeModel.
Local Open Scope N_scope.

Definition u64max : N := 2 ^ 64 - 1.
(** wrapping u64 / u32 addition: plain [+] in the release profile wraps. *)
Definition wadd64 (a b : N) : N := (a + b) mod 2 ^ 64.
Definition wadd32 (a b : N) : N := (a + b) mod 2 ^ 32.
(** unchecked [+] as a partial function: [None] when the machine add would overflow. *)
Definition chk64 (n : N) : option N := if n <=? u64max then Some n else None.
Definition chk128 (n : N) : option N := if n <? 2 ^ 128 then Some n else None.

(** ** Encodings *)

(** types/src/primary/header.rs 213-215 [Header::nonce] : (epoch as u64) << 32 | round. *)
Definition nonce (epoch round : N) : N := N.lor (N.shiftl epoch 32 mod 2 ^ 64) round.
(** types/src/helpers.rs 284-288 [deconstruct_nonce]. *)
Definition deconstruct_nonce (n : N) : N * N :=
  ((N.shiftr n 32) mod 2 ^ 32, n mod 2 ^ 32).

(** tn-reth/src/evm/config.rs 251: U256::from(batch_index << 16 | worker_id as usize);
    [usize] is 64 bits, so bits shifted out of 64 are dropped. *)
Definition difficulty (batch_index worker_id : N) : N :=
  N.lor (N.shiftl batch_index 16 mod 2 ^ 64) worker_id.
(** types/src/gas_accumulator.rs 103-105 and tn-reth/src/evm/block.rs 229-231:
    lowest 64-bit limb & 0xffff. *)
Definition worker_id_of (difficulty : N) : N := N.land (difficulty mod 2 ^ 64) 0xffff.
(** tn-reth/src/evm/block.rs 220-222 [first_batch]. *)
Definition first_batch (difficulty : N) : bool := difficulty <? 65536.

(** ** Fees *)

(** alloy_eips::eip1559::MIN_PROTOCOL_BASE_FEE (re-exported by types/src/lib.rs 58). *)
Definition MIN_FEE : N := 7.
(** gas_accumulator.rs 467. *)
Definition SAFE_MAX : N := u64max - u64max / 8.

(** gas_accumulator.rs 77-82. *)
Inductive fee_config := Eip1559 (target : N) | Static (fee : N).

(** alloy's [calc_next_block_base_fee] with [BaseFeeParams::ethereum()] (elasticity 2,
    denominator 8).  Dependency: its source is not in /repo; the formula is the EIP-1559 one
    quoted at gas_accumulator.rs 449-466.  [None] = the unchecked [+] or the u128 product
    overflows. *)
Definition calc_next (gas_used gas_limit base_fee : N) : option N :=
  let target := gas_limit / 2 in
  match N.compare gas_used target with
  | Eq => Some base_fee
  | Gt =>
      match chk128 (base_fee * (gas_used - target)), chk128 (target * 8) with
      | Some p, Some q =>
          if q =? 0 then None else
          match chk64 (p / q) with
          | Some d => chk64 (base_fee + N.max 1 d)
          | None => None
          end
      | _, _ => None
      end
  | Lt =>
      match chk128 (base_fee * (target - gas_used)), chk128 (target * 8) with
      | Some p, Some q =>
          if q =? 0 then None else
          match chk64 (p / q) with
          | Some d => Some (base_fee - d)
          | None => None
          end
      | _, _ => None
      end
  end.

(** gas_accumulator.rs 487-499 [compute_next_base_fee_eip1559]. *)
Definition next_fee_1559 (cur used target : N) : option N :=
  if target =? 0 then Some (N.max cur MIN_FEE)
  else
    let gas_limit := N.min u64max (target * 2) in
    let used := N.min used gas_limit in
    let cur := N.min cur SAFE_MAX in
    match calc_next used gas_limit cur with
    | Some f => Some (N.max f MIN_FEE)
    | None => None
    end.

(** gas_accumulator.rs 512-523 [next_base_fee_for_config]. *)
Definition next_fee (c : fee_config) (cur used : N) : option N :=
  match c with
  | Eip1559 t => next_fee_1559 cur used t
  | Static f => Some f
  end.

(** One row of the WorkerConfigs table, gas_accumulator.rs 122-128. *)
Record wentry := { we_config : fee_config; we_data : N }.

(** gas_accumulator.rs 565-580 [entry_fee_for_worker]; [None] = the error. *)
Definition entry_fee (e : wentry) : option N :=
  match we_config e with
  | Static f => Some f
  | Eip1559 _ => if we_data e <=? u64max then Some (N.max (we_data e) MIN_FEE) else None
  end.

(** ** Gas accumulator *)

(** gas_accumulator.rs [GasTotals] + [BaseFeeContainer] of one worker slot. *)
Record slot := { s_blocks : N; s_used : N; s_limit : N; s_fee : N }.
(** gas_accumulator.rs 280-287 [Accumulated::default]. *)
Definition slot0 : slot := {| s_blocks := 0; s_used := 0; s_limit := 0; s_fee := MIN_FEE |}.

Fixpoint upd_nth {A} (n : nat) (f : A -> A) (l : list A) : list A :=
  match l, n with
  | [], _ => []
  | x :: t, O => f x :: t
  | x :: t, S n => x :: upd_nth n f t
  end.

(** gas_accumulator.rs 342-360 [inc_block]; [None] = the out-of-range panic. *)
Definition inc_block (acc : list slot) (w : nat) (used limit : N) : option (list slot) :=
  if used =? 0 then Some acc
  else if (w <? length acc)%nat then
    Some (upd_nth w (fun s => {| s_blocks := wadd64 (s_blocks s) 1;
                                 s_used := wadd64 (s_used s) used;
                                 s_limit := wadd64 (s_limit s) limit;
                                 s_fee := s_fee s |}) acc)
  else None.

(** gas_accumulator.rs 363-371 [clear] (gas part; fees are kept). *)
Definition clear_gas (acc : list slot) : list slot :=
  map (fun s => {| s_blocks := 0; s_used := 0; s_limit := 0; s_fee := s_fee s |}) acc.

(** Vec::resize_with: truncate or append defaults. *)
Definition resize (n : nat) (acc : list slot) : list slot :=
  firstn n acc ++ repeat slot0 (n - length acc).

(** gas_accumulator.rs 428-440 [set_num_workers]. *)
Definition set_num_workers (n : nat) (acc : list slot) : list slot :=
  let n := Nat.max n 1 in
  if (length acc =? n)%nat then acc else resize n acc.

(** gas_accumulator.rs 384-398 [base_fee] then [BaseFeeContainer::set_base_fee] 244-246. *)
Definition set_fee (w : nat) (f : N) (acc : list slot) : option (list slot) :=
  if (w <? length acc)%nat then
    Some (upd_nth w (fun s => {| s_blocks := s_blocks s; s_used := s_used s;
                                 s_limit := s_limit s; s_fee := f |}) acc)
  else None.

(** ** Rewards counter (gas_accumulator.rs 137-213)
    The HashMap is an association list with distinct keys; its iteration order is left
    arbitrary by stating results for every permutation. *)
Definition counts := list (N * N).
Fixpoint inc_count (c : counts) (id : N) : counts :=
  match c with
  | [] => [(id, 1)]
  | (i, n) :: t => if i =? id then (i, wadd32 n 1) :: t else (i, n) :: inc_count t id
  end.

(** gas_accumulator.rs 171-191 [get_address_counts], iterating the map in the order given. *)
Definition merge_addr (cm : committee) (m : bmap N) (e : N * N) : bmap N :=
  match cm_authority cm (fst e) with
  | Some a =>
      match bm_lookup (a_addr a) m with
      | Some c => bm_insert (a_addr a) (wadd32 c (snd e)) m
      | None => bm_insert (a_addr a) (snd e) m
      end
  | None => m
  end.
Definition address_counts (ocm : option committee) (order : counts) : bmap N :=
  match ocm with
  | None => []
  | Some cm => fold_left (merge_addr cm) order []
  end.

(** ** The whole accumulator as a state machine *)
Record acc_state := { ac_slots : list slot; ac_counts : counts; ac_committee : option committee }.

Inductive acc_op :=
| OpBlock (w : nat) (used limit : N)    (* inc_block *)
| OpClear                               (* clear: gas and leader counts *)
| OpResize (n : nat)                    (* set_num_workers *)
| OpSetFee (w : nat) (f : N)            (* base_fee(w).set_base_fee(f) *)
| OpLeader (id : N)                     (* rewards_counter().inc_leader_count *)
| OpClearLeaders                        (* rewards_counter().clear *)
| OpCommittee (c : committee).          (* rewards_counter().set_committee *)

Definition acc_step (s : acc_state) (o : acc_op) : option acc_state :=
  let with_slots l := {| ac_slots := l; ac_counts := ac_counts s; ac_committee := ac_committee s |} in
  match o with
  | OpBlock w u l => option_map with_slots (inc_block (ac_slots s) w u l)
  | OpClear => Some {| ac_slots := clear_gas (ac_slots s); ac_counts := [];
                       ac_committee := ac_committee s |}
  | OpResize n => Some (with_slots (set_num_workers n (ac_slots s)))
  | OpSetFee w f => option_map with_slots (set_fee w f (ac_slots s))
  | OpLeader id => Some {| ac_slots := ac_slots s; ac_counts := inc_count (ac_counts s) id;
                           ac_committee := ac_committee s |}
  | OpClearLeaders => Some {| ac_slots := ac_slots s; ac_counts := [];
                              ac_committee := ac_committee s |}
  | OpCommittee c => Some {| ac_slots := ac_slots s; ac_counts := ac_counts s;
                             ac_committee := Some c |}
  end.

Fixpoint acc_run (s : acc_state) (ops : list acc_op) : option acc_state :=
  match ops with
  | [] => Some s
  | o :: t => match acc_step s o with Some s' => acc_run s' t | None => None end
  end.

(** gas_accumulator.rs 313-325 [GasAccumulator::new]. *)
Definition acc_new (workers : nat) : acc_state :=
  {| ac_slots := repeat slot0 workers; ac_counts := []; ac_committee := None |}.

(** ** Epoch close and entry *)

(** tn-reth/src/evm/block.rs 483-563 [record_next_epoch_base_fees]: the value written for row
    [wid], [None] when the row is skipped (Static).  The system-call plumbing is not modelled. *)
Definition recorded_fee (acc : list slot) (own_worker : nat) (own_gas : N)
    (wid : nat) (e : wentry) : option (option N) :=
  match we_config e with
  | Static _ => None
  | Eip1559 _ =>
      let '(cur, used) :=
        match nth_error acc wid with
        | Some s => (s_fee s, s_used s)
        | None => (MIN_FEE, 0)
        end in
      let used := if Nat.eqb wid own_worker then N.min u64max (used + own_gas) else used in
      Some (next_fee (we_config e) cur used)
  end.

(** The contract's [setWorkerConfigsData]: overwrite the data word of each named row (contract
    source is outside /repo; this is its documented effect). [None] = a fee overflow. *)
Fixpoint close_block_record (acc : list slot) (own_worker : nat) (own_gas : N)
    (wid : nat) (es : list wentry) : option (list wentry) :=
  match es with
  | [] => Some []
  | e :: t =>
      match close_block_record acc own_worker own_gas (S wid) t with
      | None => None
      | Some t' =>
          match recorded_fee acc own_worker own_gas wid e with
          | None => Some (e :: t')
          | Some None => None
          | Some (Some f) => Some ({| we_config := we_config e; we_data := f |} :: t')
          end
      end
  end.

(** node/manager/node/run_epoch.rs 836-886 [apply_close_time_fee_updates], success arm: resize
    to the row count, then set each worker's fee. *)
Fixpoint adjust_rows (acc : list slot) (wid : nat) (es : list wentry) : option (list slot) :=
  match es with
  | [] => Some acc
  | e :: t =>
      match nth_error acc wid with
      | None => None
      | Some s =>
          match next_fee (we_config e) (s_fee s) (s_used s) with
          | None => None
          | Some f => match set_fee wid f acc with
                      | None => None
                      | Some acc' => adjust_rows acc' (S wid) t
                      end
          end
      end
  end.
Definition adjust_base_fees (acc : list slot) (es : list wentry) : option (list slot) :=
  adjust_rows (set_num_workers (length es) acc) 0 es.

(** node/manager/node.rs 492-507 [read_base_fees_for_entered_epoch] (the per-row map; zero rows
    is an error), then [EpochBaseFees::apply] 388-393. *)
Fixpoint entry_fees (es : list wentry) : option (list N) :=
  match es with
  | [] => Some []
  | e :: t => match entry_fee e, entry_fees t with
              | Some f, Some l => Some (f :: l)
              | _, _ => None
              end
  end.
Fixpoint apply_fees (acc : list slot) (wid : nat) (fees : list N) : option (list slot) :=
  match fees with
  | [] => Some acc
  | f :: t => match set_fee wid f acc with
              | Some acc' => apply_fees acc' (S wid) t
              | None => None
              end
  end.
Definition enter_epoch (acc : list slot) (es : list wentry) : option (list slot) :=
  match es with
  | [] => None
  | _ => match entry_fees es with
         | None => None
         | Some fees => apply_fees (set_num_workers (length es) acc) 0 fees
         end
  end.

(** ** Restart: node/manager/node.rs 205-284 [catchup_accumulator], gas part.
    A block header is (difficulty, gas_used, gas_limit). *)
Record bhdr := { bh_diff : N; bh_used : N; bh_limit : N }.
Fixpoint fold_blocks (acc : list slot) (bs : list bhdr) : option (list slot) :=
  match bs with
  | [] => Some acc
  | b :: t => match inc_block acc (N.to_nat (worker_id_of (bh_diff b))) (bh_used b) (bh_limit b) with
              | Some acc' => fold_blocks acc' t
              | None => None
              end
  end.
Definition catchup (acc : list slot) (num_workers : nat) (bs : list bhdr) : option (list slot) :=
  let acc := set_num_workers num_workers acc in
  if forallb (fun b => (N.to_nat (worker_id_of (bh_diff b)) <? length acc)%nat) bs
  then fold_blocks acc bs else None.

(** Live path, engine/src/payload_builder.rs 186-249: each executed batch (batch index within
    its output, worker id, gas used, gas limit) becomes one block and one [inc_block]. *)
Record ebatch := { eb_index : N; eb_worker : N; eb_used : N; eb_limit : N }.
Definition block_of (b : ebatch) : bhdr :=
  {| bh_diff := difficulty (eb_index b) (eb_worker b); bh_used := eb_used b;
     bh_limit := eb_limit b |}.
Fixpoint live_batches (acc : list slot) (bs : list ebatch) : option (list slot) :=
  match bs with
  | [] => Some acc
  | b :: t => match inc_block acc (N.to_nat (eb_worker b)) (eb_used b) (eb_limit b) with
              | Some acc' => live_batches acc' t
              | None => None
              end
  end.
