(** The subscriber of one node, across epochs, crashes and restarts: numbering committed sub-dags,
    assembling outputs, saving them to the epoch packs and the slot file, handing them to the
    execution engine (C41).

    Every await point that matters is a separate event, so a history interleaves them freely.  An
    epoch pack is used through C42: a log of outputs with a persisted prefix; a crash falls back to
    that prefix.  [G] is the sequence of sub-dags the committee commits (C07, C08 give agreement on
    it); Bullshark's recovery is the function [resume]: given the epoch and the last sub-dag found in
    that epoch's pack, the index of the next sub-dag it will emit. *)
From Verif Require Import Util OutModel OutSpec.
Local Open Scope nat_scope.

Record pack := { pk_epoch : N; pk_start : N; pk_outs : list output; pk_kept : nat }.

(** Where [handle_consensus_output] / [handle_sync_output] stands with one output
    (subscriber.rs 139-184, 283-330; state-sync/src/lib.rs 112-127; storage/src/consensus.rs 746-786,
    1091-1096): appended to the pack; slot updated in memory and queued; pack synced; slot synced. *)
Inductive phase := Idle | Appended (o : output) | Queued (o : output) | PackOk (o : output) | Saved (o : output).

(** Volatile state: task state of the current epoch, the broadcast channel, the engine queue. *)
Record vol := mkv { v_epoch : N; v_active : bool; v_next : nat; v_parent : N; v_num : N; v_done : bool;
                v_wait : list (subdag * N * N); v_phase : phase; v_chan : list output;
                v_fwd : N; v_closed : bool; v_eng : list output }.

(** [n_packs] newest first; [n_slot] the in-memory slot (epoch, number); [n_slots] the slot values a
    crash can leave on disk (the last synced one first); [n_exec] the outputs executed and committed
    by the engine (its commit is synchronous, tn-reth/src/env/execution.rs 241-267). *)
Record node := mkn { n_packs : list pack; n_slot : N * N; n_slots : list (N * N);
                 n_exec : list output; n_up : option vol }.

Inductive ev :=
| Recv | Fetched (a : option (list (N * N))) | SyncOut (o : output)
| SlotUpd | PackSync | SlotSync | Send
| Forward | Exec | NextEpoch (active : bool) | Reenter (active : bool)
| Quit | Kill (i : nat) | Restart (active : bool).

Section S.
Variable bd : N -> N.
Variable addr : N -> N -> option N.        (* epoch, author: the committee of the epoch *)
Variable hd : N -> subdag -> N -> N.
Variable gd : N.                           (* digest of the default header, number 0 *)
Variable bound : N -> N.                   (* epoch boundary timestamp *)
Variable G : nat -> subdag.
Variable resume : N -> option subdag -> nat.

Definition MAX_PENDING : nat := 1000.                              (* subscriber.rs 132 *)

Definition odig (o : output) : N := digest_of hd (header_of o).
Definition lastof {A} (l : list A) : option A := nth_error (rev l) 0.
(** committed_at() >= epoch_boundary, subscriber.rs 366, run_epoch.rs 582, 642 *)
Definition closes (e : N) (o : output) : bool := (bound e <=? sd_ts (out_sub o))%N.

Definition set_up (n : node) (v : vol) := mkn (n_packs n) (n_slot n) (n_slots n) (n_exec n) (Some v).
(** A fatal error: the critical task ends and the node shuts down (pack and slot threads finish). *)
Definition all_kept (ps : list pack) : list pack :=
  match ps with [] => [] | p :: r => {| pk_epoch := pk_epoch p; pk_start := pk_start p; pk_outs := pk_outs p; pk_kept := length (pk_outs p) |} :: r end.
Definition stop (n : node) := mkn (all_kept (n_packs n)) (n_slot n) [n_slot n] (n_exec n) None.

Definition with_phase (v : vol) (p : phase) := mkv (v_epoch v) (v_active v) (v_next v) (v_parent v) (v_num v) (v_done v) (v_wait v) p (v_chan v) (v_fwd v) (v_closed v) (v_eng v).
Definition with_wait (v : vol) (w : list (subdag * N * N)) := mkv (v_epoch v) (v_active v) (v_next v) (v_parent v) (v_num v) (v_done v) w (v_phase v) (v_chan v) (v_fwd v) (v_closed v) (v_eng v).

(** subscriber.rs 363-378: number a received sub-dag and start fetching its batches. *)
Definition recv (v : vol) : vol :=
  let s := G (v_next v) in
  let num := (v_num v + 1)%N in
  mkv (v_epoch v) (v_active v) (S (v_next v)) (hd (v_parent v) s num) num
      (if (bound (v_epoch v) <=? sd_ts s)%N then true else v_done v)
      (v_wait v ++ [(s, v_parent v, num)]) (v_phase v) (v_chan v) (v_fwd v) (v_closed v) (v_eng v).

(** storage/src/consensus.rs 746-774 [save_consensus_output], first part: the guards and the append
    (consensus_pack.rs 1036-1088, see C42).  [None] is an error. *)
Definition append (n : node) (o : output) : option (list pack) :=
  if (out_num o <=? snd (n_slot n))%N then None
  else match n_packs n with
       | [] => None
       | p :: r =>
           if negb (sd_epoch (out_sub o) =? pk_epoch p)%N then None
           else let idx := N.to_nat (out_num o - pk_start p)%N in
                if idx <? length (pk_outs p) then Some (p :: r)
                else if idx =? length (pk_outs p)
                     then Some ({| pk_epoch := pk_epoch p; pk_start := pk_start p; pk_outs := pk_outs p ++ [o]; pk_kept := pk_kept p |} :: r)
                     else None
       end.
Definition save (n : node) (v : vol) (o : output) : node :=
  match append n o with
  | None => stop n
  | Some ps => mkn ps (n_slot n) (n_slots n) (n_exec n) (Some (with_phase v (Appended o)))
  end.

(** run_epoch.rs 570-600 [process_output], without the checks of the live path. *)
Fixpoint push (e : N) (os : list output) (eng : list output) (fwd : N) : list output * N * bool :=
  match os with
  | [] => (eng, fwd, false)
  | o :: t => if closes e o then (eng ++ [o], out_num o, true) else push e t (eng ++ [o]) (out_num o)
  end.

(** run_epoch.rs 604-655 [wait_for_epoch_boundary], 961-969 [check_output_continuity]. *)
Definition forward (n : node) (v : vol) : node :=
  match v_chan v with
  | [] => n
  | o :: t =>
      if v_closed v then n
      else if (out_num o <=? v_fwd v)%N
      then set_up n (mkv (v_epoch v) (v_active v) (v_next v) (v_parent v) (v_num v) (v_done v) (v_wait v) (v_phase v) t (v_fwd v) (v_closed v) (v_eng v))
      else if (out_num o =? v_fwd v + 1)%N
      then set_up n (mkv (v_epoch v) (v_active v) (v_next v) (v_parent v) (v_num v) (v_done v) (v_wait v) (v_phase v) t (out_num o) (closes (v_epoch v) o) (v_eng v ++ [o]))
      else stop n
  end.

Definition pack_of (e : N) (ps : list pack) : option pack := find (fun p => (pk_epoch p =? e)%N) ps.

(** consensus_bus.rs 787-807 and state-sync/src/lib.rs 138-145: the header of the last executed
    output, looked up by digest in its epoch's pack; absent means the default header. *)
Definition exec_parent (n : node) : N * N :=
  match lastof (n_exec n) with
  | None => (gd, 0%N)
  | Some o =>
      match pack_of (sd_epoch (out_sub o)) (n_packs n) with
      | None => (gd, 0%N)
      | Some p => match find (fun x => (odig x =? odig o)%N) (pk_outs p) with
                  | None => (gd, 0%N)
                  | Some x => (odig x, out_num x)
                  end
      end
  end.
(** state-sync/src/lib.rs 156-166 [last_consensus_parent], storage/src/consensus.rs 1049-1053,
    1108-1117: the latest header is that of the pack the slot's epoch names; a missing pack is an
    error ([None]). *)
Definition last_parent (n : node) : option (N * N) :=
  let ex := exec_parent n in
  match pack_of (fst (n_slot n)) (n_packs n) with
  | None => None
  | Some p => match lastof (pk_outs p) with
              | None => Some ex
              | Some o => if (snd ex <? out_num o)%N then Some (odig o, out_num o) else Some ex
              end
  end.

(** Start the subscriber of epoch [e] (subscriber.rs 349, consensus/state.rs 355-400). *)
Definition start_sub (n : node) (e : N) (active : bool) (fwd : N) (eng : list output) : node :=
  match last_parent n with
  | None => stop n
  | Some (d, num) =>
      let last := match pack_of e (n_packs n) with None => None | Some p => option_map out_sub (lastof (pk_outs p)) end in
      set_up n (mkv e active (resume e last) d num false [] Idle [] fwd false eng)
  end.
(** Nothing is left to do in the epoch but executing up to its closing output. *)
Definition closing_state (n : node) (e fwd : N) (eng : list output) : node :=
  set_up n (mkv e false 0 0%N 0%N true [] Idle [] fwd true eng).

(** storage/src/consensus.rs 399-471 [new_epoch] and run_epoch.rs 530-566: the pack of epoch [e] is
    reopened or created after the previous epoch's final number. *)
Definition open_pack (n : node) (e : N) : node :=
  match pack_of e (n_packs n) with
  | Some _ => n
  | None =>
      let st := match lastof (n_exec n) with None => 1%N | Some o => (out_num o + 1)%N end in
      mkn ({| pk_epoch := e; pk_start := st; pk_outs := []; pk_kept := 0 |} :: all_kept (n_packs n)) (n_slot n) (n_slots n) (n_exec n) (n_up n)
  end.

(** The epoch the executed chain state is in (start_epoch.rs 150-190): the closing output moves it on. *)
Definition exec_epoch (n : node) : N :=
  match lastof (n_exec n) with
  | None => 0%N
  | Some o => if closes (sd_epoch (out_sub o)) o then (sd_epoch (out_sub o) + 1)%N else sd_epoch (out_sub o)
  end.

(** Outputs of the current pack from number [a] to [b], up to the first that cannot be read. *)
Definition outputs_from (p : pack) (a b : N) : list output :=
  if (a <? pk_start p)%N then [] else firstn (N.to_nat (b + 1 - a)) (skipn (N.to_nat (a - pk_start p)) (pk_outs p)).
Definition out_at (ps : list pack) (num : N) : option output :=
  match find (fun p => ((pk_start p <=? num) && (num <? pk_start p + N.of_nat (length (pk_outs p))))%N) ps with
  | None => None
  | Some p => nth_error (pk_outs p) (N.to_nat (num - pk_start p))
  end.

(** start_epoch.rs 80-120 [replay_missed_consensus] over state-sync/src/lib.rs 174-207
    [get_missing_consensus]: [cnt] numbers from [num] on; [None] is an error. *)
Fixpoint replay (ps : list pack) (cur : pack) (e : N) (num : N) (cnt : nat) : option (list output * bool) :=
  match cnt with
  | O => Some ([], false)
  | S c =>
      match out_at ps num with
      | None => replay ps cur e (num + 1)%N c
      | Some h =>
          if negb (sd_epoch (out_sub h) =? e)%N then None
          else match outputs_from cur num num with
               | [] => None
               | o :: _ =>
                   if closes e o then Some ([o], true)
                   else match replay ps cur e (num + 1)%N c with
                        | None => None
                        | Some (os, b) => Some (o :: os, b)
                        end
               end
      end
  end.

(** node.rs 655-680, run_epoch.rs 130-310: start the process. *)
Definition boot (n0 : node) (active : bool) : node :=
  match last_parent n0 with
  | None => n0                                                     (* storage/src/consensus.rs 357-364 *)
  | Some (_, num) =>
      let e := exec_epoch n0 in
      let n := open_pack n0 e in
      match pack_of e (n_packs n) with
      | None => n0
      | Some cur =>
          let ex := snd (exec_parent n) in
          match last_parent n with
          | None => n0
          | Some (_, db) =>
              match replay (n_packs n) cur e (ex + 1)%N (N.to_nat (db - ex)) with
              | None => n0
              | Some (os, closed) =>
                  let fwd := match lastof os with None => num | Some o => out_num o end in
                  if closed then closing_state n e fwd os else start_sub n e active fwd os
              end
          end
      end
  end.

Definition restart (n : node) (active : bool) : node :=             (* storage/src/consensus.rs 333-366 *)
  boot (if (fst (n_slot n) =? 0)%N && (snd (n_slot n) =? 0)%N then open_pack n 0%N else n) active.

(** close_epoch.rs 228-290 [send_leftover_consensus_output_to_engine] and run_epoch.rs 470-515. *)
Definition reenter (n : node) (v : vol) (active : bool) : node :=
  let '(eng1, fwd1, c1) := push (v_epoch v) (v_chan v) (v_eng v) (v_fwd v) in
  if c1 then closing_state n (v_epoch v) fwd1 eng1
  else
    let left := match n_packs n with [] => [] | p :: _ => outputs_from p (fwd1 + 1)%N (snd (n_slot n)) end in
    let '(eng2, fwd2, c2) := push (v_epoch v) left eng1 fwd1 in
    if c2 then closing_state n (v_epoch v) fwd2 eng2
    else start_sub n (v_epoch v) active fwd2 eng2.

Definition step (n : node) (e : ev) : node :=
  match n_up n with
  | None =>
      match e with
      | Restart active => restart n active
      | _ => n
      end
  | Some v =>
      match e with
      | Recv =>
          match v_phase v with
          | Idle => if v_active v && negb (v_done v) && (length (v_wait v) <? MAX_PENDING) then set_up n (recv v) else n
          | _ => n
          end
      | Fetched a =>                                               (* subscriber.rs 384-395 *)
          match v_phase v, v_wait v with
          | Idle, (s, parent, num) :: w =>
              match fetch_batches bd (addr (v_epoch v)) (fun _ => a) s parent num with
              | None => stop n
              | Some o => save n (with_wait v w) o
              end
          | _, _ => n
          end
      | SyncOut o =>                                               (* subscriber.rs 139-184 *)
          match v_phase v with
          | Idle => if v_active v || (v_epoch v <? sd_epoch (out_sub o))%N then n else save n v o
          | _ => n
          end
      | SlotUpd =>                                                 (* storage/src/consensus.rs 774, 238-262 *)
          match v_phase v with
          | Appended o =>
              let sl := (sd_epoch (out_sub o), out_num o) in
              mkn (n_packs n) sl (n_slots n ++ [sl]) (n_exec n) (Some (with_phase v (Queued o)))
          | _ => n
          end
      | PackSync =>                                                (* storage/src/consensus.rs 1093 *)
          match v_phase v with
          | Queued o => mkn (all_kept (n_packs n)) (n_slot n) (n_slots n) (n_exec n) (Some (with_phase v (PackOk o)))
          | _ => n
          end
      | SlotSync =>                                                (* storage/src/consensus.rs 1094 *)
          match v_phase v with
          | PackOk o => mkn (n_packs n) (n_slot n) [n_slot n] (n_exec n) (Some (with_phase v (Saved o)))
          | _ => n
          end
      | Send =>                                                    (* subscriber.rs 178, 322 *)
          match v_phase v with
          | Saved o => set_up n (mkv (v_epoch v) (v_active v) (v_next v) (v_parent v) (v_num v) (v_done v) (v_wait v) Idle (v_chan v ++ [o]) (v_fwd v) (v_closed v) (v_eng v))
          | _ => n
          end
      | Forward => forward n v
      | Exec =>
          match v_eng v with
          | [] => n
          | o :: t => mkn (n_packs n) (n_slot n) (n_slots n) (n_exec n ++ [o])
                       (Some (mkv (v_epoch v) (v_active v) (v_next v) (v_parent v) (v_num v) (v_done v) (v_wait v) (v_phase v) (v_chan v) (v_fwd v) (v_closed v) t))
          end
      | NextEpoch active =>                                        (* run_epoch.rs 436-465, 490-515 *)
          match v_eng v with
          | [] => if v_closed v
                  then let n1 := open_pack n (v_epoch v + 1)%N in start_sub n1 (v_epoch v + 1)%N active (v_fwd v) []
                  else n
          | _ => n
          end
      | Reenter active => if v_closed v then n else reenter n v active
      | Quit => stop n
      | Kill i =>
          match nth_error (n_slots n) i with
          | None => n
          | Some sl =>
              let ps := match n_packs n with [] => [] | p :: r => {| pk_epoch := pk_epoch p; pk_start := pk_start p; pk_outs := firstn (pk_kept p) (pk_outs p); pk_kept := pk_kept p |} :: r end in
              mkn ps sl [sl] (n_exec n) None
          end
      | Restart _ => n
      end
  end.

Definition fresh : node := mkn [] (0%N, 0%N) [(0%N, 0%N)] [] None.
Definition run (evs : list ev) : node := fold_left step evs fresh.
End S.
