(** Specification of the gas / fee / reward accounting, read off the operation history. *)
From Verif Require Import Util Types CommitteeModel GasModel.
Local Open Scope N_scope.

(** Specification vocabulary (over the history, most recent operation first). *)
(** the non-empty blocks of worker [w] since its totals were last reset *)
Fixpoint blocks_since_reset (w : nat) (hist : list acc_op) : list (N * N) :=
  match hist with
  | [] => []
  | OpBlock w' used limit :: t =>
      if Nat.eqb w' w && negb (used =? 0) then (used, limit) :: blocks_since_reset w t
      else blocks_since_reset w t
  | OpClear :: _ => []
  | OpResize n :: t => if (Nat.max n 1 <=? w)%nat then [] else blocks_since_reset w t
  | _ :: t => blocks_since_reset w t
  end.
(** the fee last set for worker [w] since its slot was created, or the protocol minimum *)
Fixpoint last_fee (w : nat) (hist : list acc_op) : N :=
  match hist with
  | [] => MIN_FEE
  | OpSetFee w' f :: t => if Nat.eqb w' w then f else last_fee w t
  | OpResize n :: t => if (Nat.max n 1 <=? w)%nat then MIN_FEE else last_fee w t
  | _ :: t => last_fee w t
  end.
(** number of worker slots *)
Fixpoint workers_now (k : nat) (hist : list acc_op) : nat :=
  match hist with
  | [] => k
  | OpResize n :: _ => Nat.max n 1
  | _ :: t => workers_now k t
  end.
(** leader commits since the counts were last cleared *)
Fixpoint leaders_since_clear (hist : list acc_op) : list N :=
  match hist with
  | [] => []
  | OpLeader id :: t => id :: leaders_since_clear t
  | OpClear :: _ | OpClearLeaders :: _ => []
  | _ :: t => leaders_since_clear t
  end.
(** the committee in force *)
Fixpoint committee_now (hist : list acc_op) : option committee :=
  match hist with
  | [] => None
  | OpCommittee c :: _ => Some c
  | _ :: t => committee_now t
  end.

Definition hits (cm : committee) (addr : N) (id : N) : bool :=
  match cm_authority cm id with Some a => a_addr a =? addr | None => false end.
Definition count_if (p : N -> bool) (l : list N) : N := N.of_nat (length (filter p l)).
Definition slots_u64 (acc : list slot) : Prop := Forall (fun s => s_fee s <= u64max) acc.
Definition rows_u64 (es : list wentry) : Prop :=
  Forall (fun e => match we_config e with Static f => f <= u64max | Eip1559 t => t <= u64max end) es.
Definition slot_at (acc : list slot) (w : nat) : slot :=
  match nth_error acc w with Some s => s | None => slot0 end.
