(* Specification vocabulary for C39: what a reader of the TEL precompile's documentation would
   write. Only the call frame, the balances, the storage words and the logs are mentioned. *)
From Verif Require Import Util TelModel.
Local Open Scope N_scope.

(* keccak256 does not collide on the slots the precompile uses *)
Definition slots_ok (kslot : N -> N -> N) : Prop :=
  (forall b a b' a', b < 4 -> b' < 4 -> kslot b a = kslot b' a' -> b = b' /\ a = a') /\
  (forall b a, b < 4 -> kslot b a <> 100).

(* totalSupply as stored *)
Definition supply (st : tstate) : N := t_sto st 100.

(* the sum of the balances of a list of accounts *)
Fixpoint bal_sum (b : N -> N) (U : list N) : N :=
  match U with [] => 0 | a :: U' => b a + bal_sum b U' end.

(* U lists, once each, accounts among which are all that own anything *)
Definition holders (U : list N) (b : N -> N) : Prop :=
  NoDup U /\ forall a, ~ In a U -> b a = 0.

(* the account in whose name the call is made: msg.sender as the precompile sees it *)
Definition acting (f : frame) : N :=
  match f_kind f with KDelegate => f_sender f | _ => f_self f end.

(* ABI: selector, then 32-byte words, then anything *)
Definition calls0 (d sel : list N) : Prop := exists rest, d = sel ++ rest.
Definition calls1 (d sel w : list N) : Prop :=
  length w = 32%nat /\ exists rest, d = sel ++ w ++ rest.
Definition calls2 (d sel w1 w2 : list N) : Prop :=
  length w1 = 32%nat /\ length w2 = 32%nat /\ exists rest, d = sel ++ w1 ++ w2 ++ rest.
(* the number and the address encoded by a word *)
Definition uint (w : list N) : N := fold_left (fun a b => a * 256 + b) w 0.
Definition addr (w : list N) : N := uint (skipn 12 w).

(* TEL created and destroyed according to the ERC-20 Transfer events *)
Fixpoint created (l : list log) : N :=
  match l with
  | [] => 0
  | LTransfer 0 _ v :: l' => v + created l'
  | _ :: l' => created l'
  end.
Fixpoint destroyed (l : list log) : N :=
  match l with
  | [] => 0
  | LTransfer (Npos _) 0 v :: l' => v + destroyed l'
  | _ :: l' => destroyed l'
  end.

Section S.
Variable kslot : N -> N -> N.
Variable ovf : N -> N -> N.
Variable faucet : bool.

(* the call returns normally *)
Definition succeeds (st : tstate) (f : frame) : Prop :=
  snd (evm_call kslot ovf faucet st f) <> None.

(* no mint is waiting to be claimed *)
Definition nothing_pending (st : tstate) : Prop := forall a, t_sto st (kslot 0 a) = 0.

(* block timestamps are u64 *)
Definition times_ok (h : list ev) : Prop := forall t, In (EvBlock t) h -> t < 2 ^ 64.

Definition is_mint (f : frame) : Prop := exists w, calls1 (f_data f) SEL_MINT w.
Definition is_claim (f : frame) : Prop := exists w, calls1 (f_data f) SEL_CLAIM w.
Definition is_burn (f : frame) : Prop := exists w, calls1 (f_data f) SEL_BURN w.

Definition mint_or_claim (f : frame) : Prop := is_mint f \/ is_claim f.
Definition is_faucet_mint (f : frame) : Prop :=
  exists w1 w2, calls2 (f_data f) SEL_FAUCET_MINT w1 w2.
Definition is_grant (a : N) (f : frame) : Prop := exists w, calls1 (f_data f) SEL_GRANT w /\ addr w = a.
Definition is_revoke (a : N) (f : frame) : Prop := exists w, calls1 (f_data f) SEL_REVOKE w /\ addr w = a.

(* no call of h, run from st, that matches P returns normally *)
Definition none_succeeds (P : frame -> Prop) (st : tstate) (h : list ev) : Prop :=
  forall p f q, h = p ++ EvCall f :: q -> P f ->
    ~ succeeds (trun kslot ovf faucet st p) f.
End S.
