(* Model of the native TEL precompile: crates/tn-reth/src/evm/tel_precompile/
   {mod,burnable,faucet,helpers}.rs.

   Simplifications, all of them here:
   - A byte is an N. Calldata is a list of bytes, decoded exactly as the code does.
   - keccak256 of (address, base slot) is a parameter [kslot]; TelSpec.slots_ok says which
     collisions must not happen.
   - Database errors of sload / sstore / load_account (the map_err lines) are left out: they abort
     the block, not the call.
   - What the EVM library does when a credited balance passes 2^256 - 1 is a parameter [ovf]
     (some releases saturate, others leave the balance alone).
   - The surrounding EVM (revm) is modelled only as far as the documentation of the dispatcher
     describes it (mod.rs 134-179): four kinds of call frame, value moved to the callee before the
     precompile runs, everything undone when it reports an error. Frames that are undone later by
     an outer revert leave no trace and so do not appear in a history. *)
From Verif Require Import Util.
Local Open Scope N_scope.

(* crates/config/src/genesis.rs 37 *)
Definition GOV : N := 0x7a0.
(* mod.rs 92-93 TELCOIN_PRECOMPILE_ADDRESS *)
Definition PRE : N := 0x7e1.
(* mod.rs 118 TOTAL_SUPPLY_SLOT *)
Definition SUPPLY_SLOT : N := 100.
(* burnable.rs 79 TIMELOCK_DURATION *)
Definition TIMELOCK : N := 604800.
Definition U256_LIM : N := 2 ^ 256.

(* Selectors: first four bytes of keccak256 of the signatures of the sol! blocks, burnable.rs 41-71
   and faucet.rs 34-38 *)
Definition SEL_TOTAL_SUPPLY : list N := [0x18; 0x16; 0x0d; 0xdd].
Definition SEL_CLAIM : list N := [0x1e; 0x83; 0x40; 0x9a].
Definition SEL_BURN : list N := [0x42; 0x96; 0x6c; 0x68].
Definition SEL_MINT : list N := [0xa0; 0x71; 0x2d; 0x68].
Definition SEL_FAUCET_MINT : list N := [0x40; 0xc1; 0x0f; 0x19].
Definition SEL_GRANT : list N := [0xc2; 0xe3; 0x27; 0x3d].
Definition SEL_REVOKE : list N := [0xf8; 0x10; 0x94; 0xf3].
Definition SEL_HAS_ROLE : list N := [0xc4; 0xe5; 0x8e; 0x54].

(* U256::from_be_slice / Address::from_slice *)
Definition be_val (l : list N) : N := fold_left (fun a b => a * 256 + b) l 0.
(* calldata[i..j] *)
Definition slice (i j : nat) (l : list N) : list N := firstn (j - i) (skipn i l).
Fixpoint eqb_bytes (a b : list N) : bool :=
  match a, b with
  | [], [] => true
  | x :: a', y :: b' => (x =? y) && eqb_bytes a' b'
  | _, _ => false
  end.

(* the logs of burnable.rs 56-62 *)
Inductive log : Set :=
  | LMint (recipient amount unlock : N)
  | LClaim (recipient amount : N)
  | LBurn (amount : N)
  | LTransfer (src dst value : N).

(* The part of the chain state the precompile reads or writes: native balances, its own storage,
   the logs emitted so far, and the timestamp of the current block. *)
Record tstate : Type := mkT {
  t_bal : N -> N;
  t_sto : N -> N;
  t_logs : list log;
  t_now : N }.

Definition upd (f : N -> N) (k v : N) : N -> N := fun x => if x =? k then v else f x.
Definition set_bal (st : tstate) (a v : N) : tstate :=
  mkT (upd (t_bal st) a v) (t_sto st) (t_logs st) (t_now st).
(* EvmInternals::sstore under the precompile's address *)
Definition sstore (st : tstate) (k v : N) : tstate :=
  mkT (t_bal st) (upd (t_sto st) k v) (t_logs st) (t_now st).
(* EvmInternals::log *)
Definition emit (st : tstate) (l : log) : tstate :=
  mkT (t_bal st) (t_sto st) (t_logs st ++ [l]) (t_now st).

(* PrecompileError *)
Inductive terr : Set :=
  | EOutOfGas | EShort | EStatic | EValue | EUnknown | EUnauthorized | ECalldata
  | ENoPending | ETimelock | EOverflow | EBalance | EUnderflow | EZero.
(* PrecompileOutput bytes *)
Inductive tout : Set := OUnit | OWord (v : N) | OBool (b : bool).
Inductive tres : Type := RErr (e : terr) | ROk (st : tstate) (gas : N) (out : tout).

Section Tel.
Variable kslot : N -> N -> N.
Variable ovf : N -> N -> N.
(* cfg!(feature = "faucet") *)
Variable faucet : bool.

(* helpers.rs 21-26 *)
Definition amount_slot (a : N) : N := kslot 0 a.
(* helpers.rs 33-38 *)
Definition timestamp_slot (a : N) : N := kslot 1 a.
(* faucet.rs 46-51 mint_role_slot *)
Definition role_slot (a : N) : N := kslot 3 a.

(* helpers.rs 43-51 balance_incr *)
Definition balance_incr (st : tstate) (a v : N) : tstate :=
  set_bal st a (if t_bal st a + v <? U256_LIM then t_bal st a + v else ovf (t_bal st a) v).

(* helpers.rs 56-77 balance_decr; None is "insufficient balance" *)
Definition balance_decr (st : tstate) (a v : N) : option tstate :=
  if v =? 0 then Some st
  else if t_bal st a <? v then None
  else Some (set_bal st a (t_bal st a - v)).

(* burnable.rs 143-145 *)
Definition has_governance_role (caller : N) : bool := caller =? GOV.

(* burnable.rs 114-137 *)
Definition has_mint_role (st : tstate) (caller : N) : bool :=
  has_governance_role caller
  || (if faucet then negb (t_sto st (role_slot caller) =? 0) else false).

(* burnable.rs 83-103 *)
Definition handle_total_supply (st : tstate) (gas : N) : tres :=
  if gas <? 2100 then RErr EOutOfGas
  else ROk st 2100 (OWord (t_sto st SUPPLY_SLOT)).

(* burnable.rs 161-219 *)
Definition handle_mint (st : tstate) (cd : list N) (caller gas : N) : tres :=
  if gas <? 41000 then RErr EOutOfGas
  else if negb (has_mint_role st caller) then RErr EUnauthorized
  else if (length cd <? 32)%nat then RErr ECalldata
  else
    let amount := be_val (slice 0 32 cd) in
    let unlock := (t_now st + TIMELOCK) mod U256_LIM in
    let st1 := sstore st (amount_slot GOV) amount in
    let st2 := sstore st1 (timestamp_slot GOV) unlock in
    ROk (emit st2 (LMint GOV amount unlock)) 41000 OUnit.

(* burnable.rs 237-337 *)
Definition handle_claim (st : tstate) (cd : list N) (caller gas : N) : tres :=
  if gas <? 25000 then RErr EOutOfGas
  else if negb (has_governance_role caller) then RErr EUnauthorized
  else if (length cd <? 32)%nat then RErr ECalldata
  else
    let recipient := be_val (slice 12 32 cd) in
    let amount := t_sto st (amount_slot recipient) in
    if amount =? 0 then RErr ENoPending
    else
      let unlock := t_sto st (timestamp_slot recipient) in
      if t_now st <? unlock then RErr ETimelock
      else
        let st1 := balance_incr st recipient amount in
        let st2 := sstore st1 (amount_slot recipient) 0 in
        let st3 := sstore st2 (timestamp_slot recipient) 0 in
        let supply := t_sto st3 SUPPLY_SLOT in
        if supply + amount <? U256_LIM then
          let st4 := sstore st3 SUPPLY_SLOT (supply + amount) in
          ROk (emit (emit st4 (LClaim recipient amount)) (LTransfer 0 recipient amount)) 25000 OUnit
        else RErr EOverflow.

(* burnable.rs 347-414 *)
Definition handle_burn (st : tstate) (cd : list N) (caller gas : N) : tres :=
  if gas <? 8000 then RErr EOutOfGas
  else if negb (has_governance_role caller) then RErr EUnauthorized
  else if (length cd <? 32)%nat then RErr ECalldata
  else
    let amount := be_val (slice 0 32 cd) in
    match balance_decr st PRE amount with
    | None => RErr EBalance
    | Some st1 =>
        let supply := t_sto st1 SUPPLY_SLOT in
        if supply <? amount then RErr EUnderflow
        else
          let st2 := sstore st1 SUPPLY_SLOT (supply - amount) in
          ROk (emit (emit st2 (LBurn amount)) (LTransfer PRE 0 amount)) 8000 OUnit
    end.

(* faucet.rs 62-134 *)
Definition handle_mint_faucet (st : tstate) (cd : list N) (caller gas : N) : tres :=
  if gas <? 30000 then RErr EOutOfGas
  else if negb (has_mint_role st caller) then RErr EUnauthorized
  else if (length cd <? 64)%nat then RErr ECalldata
  else
    let amount := be_val (slice 32 64 cd) in
    if amount =? 0 then RErr EZero
    else
      let recipient := be_val (slice 12 32 cd) in
      let st1 := balance_incr st recipient amount in
      let supply := t_sto st1 SUPPLY_SLOT in
      if supply + amount <? U256_LIM then
        let st2 := sstore st1 SUPPLY_SLOT (supply + amount) in
        ROk (emit (emit st2 (LMint recipient amount 0)) (LTransfer 0 recipient amount)) 30000 OUnit
      else RErr EOverflow.

(* faucet.rs 143-172 (v = 1) and 180-207 (v = 0) *)
Definition handle_set_role (v : N) (st : tstate) (cd : list N) (caller gas : N) : tres :=
  if gas <? 22000 then RErr EOutOfGas
  else if negb (caller =? GOV) then RErr EUnauthorized
  else if (length cd <? 32)%nat then RErr ECalldata
  else ROk (sstore st (role_slot (be_val (slice 12 32 cd))) v) 22000 OUnit.

(* faucet.rs 214-237 *)
Definition handle_has_mint_role (st : tstate) (cd : list N) (gas : N) : tres :=
  if gas <? 2100 then RErr EOutOfGas
  else if (length cd <? 32)%nat then RErr ECalldata
  else ROk st 2100 (OBool (has_mint_role st (be_val (slice 12 32 cd)))).

(* alloy_evm PrecompileInput, the fields telcoin_precompile reads *)
Record pinput : Type := mkIn {
  pi_data : list N; pi_gas : N; pi_caller : N; pi_value : N; pi_target : N; pi_static : bool }.

(* mod.rs 180-244 telcoin_precompile *)
Definition telcoin_precompile (st : tstate) (i : pinput) : tres :=
  if (length (pi_data i) <? 4)%nat then RErr EShort
  else
    let sel := firstn 4 (pi_data i) in
    let cd := skipn 4 (pi_data i) in
    let is s := eqb_bytes sel s in
    let read_only := is SEL_TOTAL_SUPPLY || (faucet && is SEL_HAS_ROLE) in
    if negb (read_only || negb (pi_static i)) then RErr EStatic
    else
      let payable := is SEL_BURN && (pi_target i =? PRE) in
      if negb (payable || (pi_value i =? 0)) then RErr EValue
      else if negb faucet && is SEL_MINT then handle_mint st cd (pi_caller i) (pi_gas i)
      else if is SEL_CLAIM then handle_claim st cd (pi_caller i) (pi_gas i)
      else if is SEL_BURN then handle_burn st cd (pi_caller i) (pi_gas i)
      else if is SEL_TOTAL_SUPPLY then handle_total_supply st (pi_gas i)
      else if faucet && is SEL_GRANT then handle_set_role 1 st cd (pi_caller i) (pi_gas i)
      else if faucet && is SEL_REVOKE then handle_set_role 0 st cd (pi_caller i) (pi_gas i)
      else if faucet && is SEL_HAS_ROLE then handle_has_mint_role st cd (pi_gas i)
      else if faucet && is SEL_FAUCET_MINT then
        handle_mint_faucet st cd (pi_caller i) (pi_gas i)
      else RErr EUnknown.

(* ---------- the EVM around it (mod.rs 134-179 describes what is relied on) ---------- *)
Inductive ckind : Set := KCall | KCallCode | KDelegate | KStatic.

(* A call whose code address is the precompile. [f_self] is the account whose code runs the call
   instruction (for a transaction sent straight to the precompile: its signer), [f_sender] is
   msg.sender inside that account's frame, [f_static] says that frame is already static. For a
   delegate call [f_value] is msg.value of the calling frame, otherwise the operand. *)
Record frame : Type := mkF {
  f_kind : ckind; f_self : N; f_sender : N; f_value : N; f_static : bool;
  f_data : list N; f_gas : N }.

(* what the EVM passes to the precompile for each kind of call *)
Definition input_of (f : frame) : pinput :=
  match f_kind f with
  | KCall => mkIn (f_data f) (f_gas f) (f_self f) (f_value f) PRE (f_static f)
  | KCallCode => mkIn (f_data f) (f_gas f) (f_self f) (f_value f) (f_self f) (f_static f)
  | KDelegate => mkIn (f_data f) (f_gas f) (f_sender f) (f_value f) (f_self f) (f_static f)
  | KStatic => mkIn (f_data f) (f_gas f) (f_self f) 0 PRE true
  end.

(* value moved before the callee runs; None: the call does not start *)
Definition pre_transfer (st : tstate) (f : frame) : option tstate :=
  match f_kind f with
  | KCall =>
      if f_static f && negb (f_value f =? 0) then None
      else if t_bal st (f_self f) <? f_value f then None
      else
        let st1 := set_bal st (f_self f) (t_bal st (f_self f) - f_value f) in
        if t_bal st1 PRE + f_value f <? U256_LIM
        then Some (set_bal st1 PRE (t_bal st1 PRE + f_value f)) else None
  | KCallCode => if t_bal st (f_self f) <? f_value f then None else Some st
  | KDelegate | KStatic => Some st
  end.

(* the whole call: the new state and, on success, the output *)
Definition evm_call (st : tstate) (f : frame) : tstate * option tout :=
  match pre_transfer st f with
  | None => (st, None)
  | Some st1 =>
      match telcoin_precompile st1 (input_of f) with
      | RErr _ => (st, None)
      | ROk st2 _ out => (st2, Some out)
      end
  end.

(* Everything else that happens on the chain, as far as it can touch this state: a new block sets
   the timestamp; native value moves between accounts (transfers, fees, penalties, rewards). The
   precompile account has no key and runs no code, so it is never the source of such a move. *)
Inductive ev : Type :=
  | EvBlock (now : N)
  | EvMove (src dst v : N)
  | EvCall (f : frame).

Definition tstep (st : tstate) (e : ev) : tstate :=
  match e with
  | EvBlock now => mkT (t_bal st) (t_sto st) (t_logs st) now
  | EvMove src dst v =>
      if (src =? PRE) || (t_bal st src <? v) then st
      else
        let st1 := set_bal st src (t_bal st src - v) in
        if t_bal st1 dst + v <? U256_LIM then set_bal st1 dst (t_bal st1 dst + v) else st
  | EvCall f => fst (evm_call st f)
  end.

Definition trun (st : tstate) (h : list ev) : tstate := fold_left tstep h st.

End Tel.
