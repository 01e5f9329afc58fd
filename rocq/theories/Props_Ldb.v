(* C35: the layered epoch database. Histories are lists of client calls, background-thread turns (with the outcome of
   their I/O) and crashes; `lrun` replays them from a freshly opened database; `l_get` is what a reader sees;
   `l_acks` are the answers given to `persist` calls (true = success). *)
From Verif Require Import Util LdbModel LdbProofs LdbHist.
Local Open Scope N_scope.

(* (1) full-memory mode: once `persist` (barrier b) is answered with success, the last write to k issued before it
   is never lost: whatever happens next, any number of crashes and I/O failures included, reading k gives
   that write's value or the value given by a write issued after the barrier. *)
Theorem C35_acknowledged_writes_survive :
  forall V (disk : table V) a o mid b post later k w,
  effect k o = Some w ->
  no_crash mid -> no_crash post -> Forall (fun o' => effect k o' = None) (writes mid) ->
  NoDup (barriers (a ++ EWrite o :: mid ++ EBarrier b :: post)) ->
  In (b, true) (l_acks (lrun (l_open true disk) (a ++ EWrite o :: mid ++ EBarrier b :: post))) ->
  let v := l_get (lrun (l_open true disk) (a ++ EWrite o :: mid ++ EBarrier b :: post ++ later)) k in
  v = w \/ exists o', In o' (writes (post ++ later)) /\ effect k o' = Some v.
Proof. exact @durable_write. Qed.
Print Assumptions C35_acknowledged_writes_survive.

(* (2) an inserted value is read back at once and until the next write to the key or crash *)
Theorem C35_read_your_inserts :
  forall V (disk : table V) a k v mid,
  no_crash mid -> Forall (fun o' => effect k o' = None) (writes mid) ->
  l_get (lrun (l_open true disk) (a ++ EWrite (Ins k v) :: mid)) k = Some v.
Proof. exact @insert_visible. Qed.
Print Assumptions C35_read_your_inserts.

(* (3) after a write was lost to an I/O error no later `persist` succeeds until the process restarts *)
Theorem C35_no_success_after_lost_write :
  forall V (disk : table V) a rest,
  (exists o q, l_queue (lrun (l_open true disk) a) = MOp o :: q) -> no_crash rest ->
  forall i, In (i, true) (l_acks (lrun (l_open true disk) (a ++ ERun false :: rest))) ->
            In (i, true) (l_acks (lrun (l_open true disk) a)).
Proof. exact @lost_write_unacked. Qed.
Print Assumptions C35_no_success_after_lost_write.

(* a run that meets the hypotheses: write inside a transaction, barrier while it is open, commit, all processed *)
Definition demo : list (lev N) :=
  [EBegin; EWrite (Ins (1,1) 7); EBarrier 5; ECommit; ERun true; ERun true; ERun true; ERun true; ECrash].
Example C35_demo :
  In (5, true) (l_acks (lrun (l_open true (fun _ => None)) (removelast demo))) /\
  l_get (lrun (l_open true (fun _ => None)) demo) (1,1) = Some 7.
Proof. vm_compute. auto. Qed.
(* the same run with the commit failing: the barrier is answered with failure *)
Example C35_demo_fail :
  l_acks (lrun (l_open true (fun _ => None))
    [EBegin; EWrite (Ins (1,1) 7); EBarrier 5; ECommit; ERun true; ERun true; ERun true; ERun false]) = [(5, false)].
Proof. vm_compute. reflexivity. Qed.

(* (4) limits. A removed key can still be read until the background thread has caught up. *)
Theorem C35_read_your_removes_refuted :
  exists (disk : table N) k, l_get (lrun (l_open true disk) [EWrite (Del k)]) k <> None.
Proof. exact stale_remove. Qed.
Print Assumptions C35_read_your_removes_refuted.
(* In cache mode (full_memory = false) an overwritten value can reappear after it was replaced: the memory entry is
   dropped when the FIRST insert reaches the disk. *)
Theorem C35_cache_mode_read_your_inserts_refuted :
  exists (disk : table N) k, l_get (lrun (l_open false disk)
     [EWrite (Ins k 1); EWrite (Ins k 2); ERun true]) k = Some 1.
Proof. exact stale_cache. Qed.
Print Assumptions C35_cache_mode_read_your_inserts_refuted.
(* An answered `sync_persist` (CaughtUp) says nothing about durability while a transaction is open. *)
Theorem C35_sync_persist_not_durable_refuted :
  exists (disk : table N) k, l_get (lrun (l_open true disk)
     [EBegin; EWrite (Ins k 1); ECaughtUp; ERun true; ERun true; ERun true; ECrash]) k = None /\
  l_queue (lrun (l_open true disk) [EBegin; EWrite (Ins k 1); ECaughtUp; ERun true; ERun true; ERun true]) = [].
Proof. exact caught_up_not_durable. Qed.
Print Assumptions C35_sync_persist_not_durable_refuted.
