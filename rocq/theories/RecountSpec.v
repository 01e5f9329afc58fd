(** Specification for C34: what consensus may deliver, and what a counter must show. *)
From Verif Require Import Util Types GasModel RecountModel.
Local Open Scope N_scope.

(** The count a reward counter shows for an authority. *)
Definition lead_count (c : counts) (a : N) : N :=
  match find (fun e => fst e =? a) c with Some (_, n) => n | None => 0 end.
(** How many of the given outputs authority [a] led (leader counts are u32). *)
Definition led (a : N) (l : list out) : N :=
  N.of_nat (length (filter (fun o => o_leader o =? a) l)) mod 2 ^ 32.
Definition in_epoch (e : N) (l : list out) : list out := filter (fun o => o_epoch o =? e) l.

(** The next output consensus hands over, given everything delivered before: numbered
    consecutively from 1 (C13), of the epoch the node is in, with a leader round above every
    earlier one of the epoch (C11) and above 0, and nothing after the output that closes the
    epoch (subscriber.rs 360-366). *)
Definition next_output (log : list out) (epoch : N) (o : out) : Prop :=
  o_num o = N.of_nat (length log) + 1 /\ o_epoch o = epoch /\
  0 < o_round o /\ o_round o < 2 ^ 32 /\ epoch < 2 ^ 32 /\
  (forall p, In p log -> o_epoch p = epoch -> o_round p < o_round o /\ o_close p = false).

(** The slot files name the epoch of the last output saved. *)
Definition hint_fresh (d : disk) : Prop :=
  match rev (d_log d) with [] => True | l :: _ => d_hint d = o_epoch l end.

(** Histories of one node: any interleaving of deliveries, slot writes, executions, epoch
    closings and crashes, the latter at any point at which the slot files are fresh. *)
Inductive reach : node -> Prop :=
| reach0 : reach genesis
| reach_save s o s' : reach s -> next_output (d_log (n_disk s)) (n_pack s) o ->
    step s (Save o) = Some s' -> reach s'
| reach_flush s s' : reach s -> step s Flush = Some s' -> reach s'
| reach_exec s s' : reach s -> step s Exec = Some s' -> reach s'
| reach_close s s' : reach s -> step s Close = Some s' -> reach s'
| reach_crash s s' : reach s -> hint_fresh (n_disk s) -> step s Crash = Some s' -> reach s'.

(** Execute everything that is queued. *)
Fixpoint drain (n : nat) (s : node) : node :=
  match n with
  | O => s
  | S n' => match exec_next s with Some s' => drain n' s' | None => s end
  end.
Definition drained (s : node) : node := drain (length (n_queue s)) s.
