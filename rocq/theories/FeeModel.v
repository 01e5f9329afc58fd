(* Model of the gas settlement of a transaction: crates/tn-reth/src/evm/handler.rs (TNEvmHandler)
   and crates/tn-reth/src/evm/utils.rs (calculate_gas_penalty).

   Fixed-width arithmetic is explicit: u128 products and powers wrap unless the code says
   saturating. What the EVM library does when a credited balance passes 2^256 - 1 is the parameter
   [ovf]. Validation and the up-front debit of gas_limit * effective_gas_price are revm's; the debit
   is modelled because settlement is meaningless without it, validation appears as hypotheses. *)
From Verif Require Import Util.
Local Open Scope N_scope.

Definition U64_LIM : N := 2 ^ 64.
Definition U128_LIM : N := 2 ^ 128.
Definition U256_LIM : N := 2 ^ 256.

(* u128 operators *)
Definition mul128 (a b : N) : N := (a * b) mod U128_LIM.
Definition sat_mul128 (a b : N) : N := N.min (a * b) (U128_LIM - 1).

(* utils.rs 14-24 *)
Definition MIN_GAS_LIMIT_THRESHOLD : N := 210000.
Definition PRECISION : N := 10 ^ 9.
Definition THRESHOLD : N := 10 ^ 8.
Definition THRESHOLD_SQUARED : N := 10 ^ 16.

(* utils.rs 53-98 calculate_gas_penalty *)
Definition calculate_gas_penalty (gas_limit gas_used : N) : N :=
  if gas_limit <=? MIN_GAS_LIMIT_THRESHOLD then 0
  else
    let usage_ratio_scaled := mul128 PRECISION gas_used / gas_limit in
    if THRESHOLD <=? usage_ratio_scaled then 0
    else
      let unused_gas := gas_limit - gas_used in
      let inefficiency_scaled := THRESHOLD - usage_ratio_scaled in
      let inefficiency_squared := mul128 inefficiency_scaled inefficiency_scaled in
      let penalty := mul128 inefficiency_squared unused_gas / THRESHOLD_SQUARED in
      if penalty <? U64_LIM then penalty else unused_gas mod U64_LIM.

(* crates/tn-reth/src/system_calls.rs, alloy SYSTEM_ADDRESS *)
Definition SYSTEM : N := 0xfffffffffffffffffffffffffffffffffffffffe.

(* the parts of the context the two hooks read: transaction, block and final gas counters *)
Record txctx : Type := mkTx {
  x_caller : N;
  x_gas_limit : N;
  x_price : N;          (* effective_gas_price(basefee), u128 *)
  x_basefee : N;        (* block basefee *)
  x_beneficiary : N;
  x_collector : N;      (* handler.rs 47 basefee_address *)
  x_spent : N;          (* gas.spent() *)
  x_refunded : N }.     (* gas.refunded() *)

(* gas.spent_sub_refunded() *)
Definition gas_used (x : txctx) : N := x_spent x - x_refunded x.

Section Fee.
Variable ovf : N -> N -> N.

(* JournaledAccountTr::incr_balance *)
Definition credit (b : N -> N) (a v : N) : N -> N :=
  fun k => if k =? a then (if b a + v <? U256_LIM then b a + v else ovf (b a) v) else b k.

(* revm: the caller pays the whole gas limit up front *)
Definition deduct_caller (x : txctx) (b : N -> N) : N -> N :=
  if x_caller x =? SYSTEM then b
  else fun k => if k =? x_caller x then b k - x_gas_limit x * x_price x else b k.

(* handler.rs 95-151 reimburse_caller *)
Definition penalty_gas (x : txctx) : N := calculate_gas_penalty (x_gas_limit x) (x_spent x).
Definition refund_amount (x : txctx) : N := (x_gas_limit x - gas_used x) - penalty_gas x.
Definition reimburse_caller (x : txctx) (b : N -> N) : N -> N :=
  if x_caller x =? SYSTEM then b
  else
    let b1 := if 0 <? refund_amount x
              then credit b (x_caller x) (sat_mul128 (x_price x) (refund_amount x)) else b in
    if 0 <? penalty_gas x
    then credit b1 (x_collector x) (sat_mul128 (x_price x) (penalty_gas x)) else b1.

(* handler.rs 154-188 reward_beneficiary *)
Definition reward_beneficiary (x : txctx) (b : N -> N) : N -> N :=
  if x_caller x =? SYSTEM then b
  else
    let coinbase_gas_price := x_price x - x_basefee x in
    let b1 := credit b (x_beneficiary x) (sat_mul128 coinbase_gas_price (gas_used x)) in
    credit b1 (x_collector x) (sat_mul128 (x_basefee x) (gas_used x)).

(* order of the hooks in revm's post_execution: reimburse, then reward *)
Definition settle (x : txctx) (b : N -> N) : N -> N := reward_beneficiary x (reimburse_caller x b).
End Fee.
