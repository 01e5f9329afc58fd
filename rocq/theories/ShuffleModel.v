(* Model of the selection of the next committee: crates/tn-reth/src/evm/block.rs 939-1049 (generate_conclude_epoch_calldata,
   shuffle_new_committee, read_committee_eligible_pool, post-fork) and 1557-1625 (assemble_new_committee).
   The generator seeded with the epoch randomness is a function from the number of draws made so far and an exclusive bound
   to a number (`random_range(0..b)`); addresses are numbers; the registry contract is its list of validators. *)
From Verif Require Import Util.

Inductive vstatus := SActive | SPendingActivation | SPendingExit | SOther.
Record vinfo := mk_vinfo { vi_addr : N; vi_status : vstatus }.
Definition status_eqb (a b : vstatus) : bool :=
  match a, b with SActive, SActive | SPendingActivation, SPendingActivation | SPendingExit, SPendingExit | SOther, SOther => true | _, _ => false end.

Definition rng := nat -> nat -> nat.

(* 1018-1047: getValidatorsInfo per status, concatenated *)
Definition eligible_pool (registry : list vinfo) : list vinfo :=
  filter (fun v => status_eqb (vi_status v) SActive) registry ++
  filter (fun v => status_eqb (vi_status v) SPendingActivation) registry ++
  filter (fun v => status_eqb (vi_status v) SPendingExit) registry.

Fixpoint upd {A} (l : list A) (i : nat) (x : A) : list A :=
  match l, i with [], _ => [] | _ :: r, 0 => x :: r | y :: r, S i' => y :: upd r i' x end.
(* slice::swap *)
Definition swap {A} (l : list A) (i j : nat) : list A :=
  match nth_error l i, nth_error l j with Some a, Some b => upd (upd l i b) j a | _, _ => l end.

(* rand 0.9 IteratorRandom::choose_multiple after the reservoir is full: i elements seen beyond it, p draws made *)
Fixpoint reservoir {A} (g : rng) (p i amount : nat) (res rest : list A) : nat * list A :=
  match rest with
  | [] => (p, res)
  | x :: r => let k := g p (i + 1 + amount) in reservoir g (S p) (S i) amount (upd res k x) r
  end.
Definition choose_multiple {A} (g : rng) (p : nat) (l : list A) (amount : nat) : nat * list A :=
  if length l <? amount then (p, l) else reservoir g p 0 amount (firstn amount l) (skipn amount l).

(* 1597-1600: for i in (1..len).rev() { swap(i, random_range(0..=i)) } *)
Fixpoint fisher_yates {A} (g : rng) (p i : nat) (l : list A) : list A :=
  match i with 0 => l | S i' => fisher_yates g (S p) i' (swap l i (g p (S i))) end.

Inductive cerr := EZero | EUndersized (expected got : nat).
(* 1557-1625; upd beyond the end is `get_mut` answering None *)
Definition assemble (g : rng) (size : nat) (pool : list vinfo) : list N + cerr :=
  if size =? 0 then inr EZero
  else
    let pending_exit := filter (fun v => status_eqb (vi_status v) SPendingExit) pool in
    let active := filter (fun v => negb (status_eqb (vi_status v) SPendingExit)) pool in
    let '(p, for_shuffle) :=
      if size <=? length active then (0, active)
      else let '(p, extra) := choose_multiple g 0 pending_exit (size - length active) in (p, active ++ extra) in
    let shuffled := fisher_yates g p (length for_shuffle - 1) for_shuffle in
    let committee := firstn size (map vi_addr shuffled) in
    if length committee =? size then inl committee else inr (EUndersized size (length committee)).

(* Vec::sort of addresses *)
Fixpoint ins_addr (x : N) (l : list N) : list N :=
  match l with [] => [x] | y :: r => if N.leb x y then x :: l else y :: ins_addr x r end.
Definition sort_addr (l : list N) : list N := fold_right ins_addr [] l.
(* 939-952: the argument of concludeEpoch; seed is ctx.close_epoch *)
Definition new_committee (gen : N -> rng) (seed : N) (size : nat) (registry : list vinfo) : list N + cerr :=
  match assemble (gen seed) size (eligible_pool registry) with inl c => inl (sort_addr c) | inr e => inr e end.
