(** Waiting for a certificate (C67): crates/storage/src/stores/certificate_store.rs 124-147 ([save_cert]), 250-269 ([notify_read]) and
    crates/tn-utils/src/notify_read.rs 18-143.

    Every step is one that is atomic in the code: an insert that is visible at once (the layered database writes to memory first,
    layered_db.rs 97-102), taking the registrations of a key under its lock, sending to one waiter, and so on; they interleave freely.
    Simplified: the 255 locked maps are one map; the counter of registrations is left out; database reads succeed; the index
    entries, written before the notification too, are left out. *)
From Verif Require Import Util.
From Coq Require Import Relations.
Local Open Scope N_scope.

(** a waiter: not started; registered, before its read; the read found the value, before the notification; waiting; its
    registration dropped, before the clean-up, with what it returns; finished *)
Inductive phase := Idle | Registered (k : N) | Hit (k v : N) | Waiting (k : N) | Dropped (k : N) (r : option N) | Finished (k : N) (r : option N).
Record state := {
  store : N -> option N;
  pend : N -> list N;                     (* the registered senders of a key *)
  fly : list (N * N * N);                 (* waiter, key, value: taken from the map, not sent yet *)
  wr : list (N * N);                      (* inserted, not notified yet *)
  ph : N -> phase;
  sent : N -> option N;                   (* the oneshot channel of a waiter *)
  log : list (N * N) }.                   (* every insert there was *)
Definition upd {A} (f : N -> A) (k : N) (x : A) : N -> A := fun j => if j =? k then x else f j.
Definition start : state :=
  {| store := fun _ => None; pend := fun _ => []; fly := []; wr := []; ph := fun _ => Idle; sent := fun _ => None; log := [] |}.
(** the receiver is gone *)
Definition closed (p : phase) : bool := match p with Dropped _ _ | Finished _ _ => true | _ => false end.
(** 37-49: the registrations leave the map together *)
Definition take (s : state) (k v : N) : state :=
  {| store := store s; pend := upd (pend s) k []; fly := fly s ++ map (fun w => (w, k, v)) (pend s k); wr := wr s; ph := ph s;
     sent := sent s; log := log s |}.
Definition set_ph (s : state) (w : N) (p : phase) : state :=
  {| store := store s; pend := pend s; fly := fly s; wr := wr s; ph := upd (ph s) w p; sent := sent s; log := log s |}.
(** 82-103 *)
Definition cleanup (s : state) (k : N) : state :=
  {| store := store s; pend := upd (pend s) k (filter (fun w => negb (closed (ph s w))) (pend s k)); fly := fly s; wr := wr s; ph := ph s;
     sent := sent s; log := log s |}.

Inductive step : state -> state -> Prop :=
(* save_cert: the insert, later the notification *)
| s_insert s k v :
    step s {| store := upd (store s) k (Some v); pend := pend s; fly := fly s; wr := (k, v) :: wr s; ph := ph s; sent := sent s; log := (k, v) :: log s |}
| s_notify s a k v b : wr s = a ++ (k, v) :: b ->
    step s (take {| store := store s; pend := pend s; fly := fly s; wr := a ++ b; ph := ph s; sent := sent s; log := log s |} k v)
| s_delete s k :
    step s {| store := upd (store s) k None; pend := pend s; fly := fly s; wr := wr s; ph := ph s; sent := sent s; log := log s |}
(* 46: a send fails, and is ignored, if the receiver is gone *)
| s_send s a w k v b : fly s = a ++ (w, k, v) :: b ->
    step s {| store := store s; pend := pend s; fly := a ++ b; wr := wr s; ph := ph s;
              sent := if closed (ph s w) then sent s else upd (sent s) w (Some v); log := log s |}
(* notify_read *)
| s_register s w k : ph s w = Idle ->
    step s {| store := store s; pend := upd (pend s) k (pend s k ++ [w]); fly := fly s; wr := wr s; ph := upd (ph s) w (Registered k);
              sent := sent s; log := log s |}
| s_hit s w k v : ph s w = Registered k -> store s k = Some v -> step s (set_ph s w (Hit k v))
| s_miss s w k : ph s w = Registered k -> store s k = None -> step s (set_ph s w (Waiting k))
| s_hit_notify s w k v : ph s w = Hit k v -> step s (set_ph (take s k v) w (Dropped k (Some v)))
| s_wake s w k v : ph s w = Waiting k -> sent s w = Some v -> step s (set_ph s w (Finished k (Some v)))
(* the caller gives up *)
| s_cancel s w k : ph s w = Waiting k -> step s (set_ph s w (Dropped k None))
| s_cleanup s w k r : ph s w = Dropped k r -> step s (set_ph (cleanup s k) w (Finished k r)).
Inductive reach : state -> Prop :=
| r_start : reach start
| r_step s s' : reach s -> step s s' -> reach s'.
Definition run := clos_refl_trans state step.
