(* Specification vocabulary for C40 *)
From Verif Require Import Util FeeModel.
Local Open Scope N_scope.

(* what revm's validation and gas accounting guarantee about a transaction that was executed *)
Definition valid_tx (x : txctx) : Prop :=
  x_caller x <> SYSTEM /\
  x_gas_limit x < 2 ^ 64 /\ x_spent x <= x_gas_limit x /\ x_refunded x <= x_spent x /\
  x_basefee x <= x_price x /\ x_gas_limit x * x_price x < 2 ^ 128.

(* sum of the balances of a list of accounts *)
Fixpoint total (b : N -> N) (U : list N) : N :=
  match U with [] => 0 | a :: U' => b a + total b U' end.

(* the documented penalty, on exact integers: quadratic in the shortfall below 10% usage *)
Definition penalty_spec (limit used : N) : N :=
  if (limit <=? 210000) || (limit <=? 10 * used) then 0
  else ((100000000 - 1000000000 * used / limit) ^ 2 * (limit - used)) / 10000000000000000.

(* gas the sender finally pays for: used after refunds, plus the penalty *)
Definition charged_gas (x : txctx) : N :=
  (x_spent x - x_refunded x) + penalty_spec (x_gas_limit x) (x_spent x).
