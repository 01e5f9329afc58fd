(** Restart: rebuilding the leader counts and replaying committed outputs (C34). *)
From Verif Require Import Util Types GasModel.
Local Open Scope N_scope.

(** A consensus output as far as the engine, the consensus store and the reward counter see it:
    number, the leader's epoch, round and author, the number of flattened batches, and whether
    its commit timestamp has reached the epoch boundary (types/src/primary/output.rs;
    node/src/manager/node/run_epoch.rs 583-586 [process_output] sets the closing flag).
    Simplified: a boolean stands for committed_at >= epoch_boundary. *)
Record out := { o_num : N; o_epoch : N; o_round : N; o_leader : N; o_batches : nat; o_close : bool }.

(** What survives a crash.
    - [d_log]: the consensus store; the pack file of epoch e is the sub-list of outputs of that
      epoch in the order saved (storage/src/consensus.rs 746-792: an output whose epoch differs
      from the current pack's is refused).
    - [d_hint]: the epoch in the two slot files (consensus.rs 100-293 [LatestConsensus]), written
      by a background thread, so it can lag behind [d_log]; 0 when nothing was ever written.
    - [d_tip]: the output that produced the last finalized block ([None]: genesis).  The blocks of an
      output and the finalized marker are committed in one transaction
      (engine/src/payload_builder.rs 254-274), so the tip is always a whole output.
    - [d_epoch]: the epoch the registry reports at that block (concludeEpoch runs in the closing
      block). *)
Record disk := { d_log : list out; d_hint : N; d_tip : option out; d_epoch : N }.

Definition pack_of (log : list out) (e : N) : list out := filter (fun o => o_epoch o =? e) log.

(** A running node: its disk, the epoch of the open pack, the leader counts, and the outputs
    forwarded to (or about to be forwarded to) the engine but not executed yet. *)
Record node := { n_disk : disk; n_pack : N; n_counts : counts; n_queue : list out }.

(** engine/src/payload_builder.rs 24-285 [execute_consensus_output], seen from the counter and
    the chain tip: the leader is counted first (43); an output with no batch that does not close
    the epoch produces no block (96-112); any other advances the tip (block nonce = leader nonce);
    the closing block bumps the registry epoch.  Not modelled: block contents, gas (C20), errors
    (an error halts the node, i.e. is a crash before the commit). *)
Definition produces_block (o : out) : bool := negb (Nat.eqb (o_batches o) 0) || o_close o.
Definition execute (d : disk) (c : counts) (o : out) : disk * counts :=
  let c' := inc_count c (o_leader o) in
  if produces_block o then
    ({| d_log := d_log d; d_hint := d_hint d; d_tip := Some o;
        d_epoch := if o_close o then d_epoch d + 1 else d_epoch d |}, c')
  else (d, c').

(** storage/src/consensus_pack.rs 1321-1349 [count_leaders]: newest first, rounds 0 and above the
    bound skipped. *)
Definition count_leaders (pack : list out) (bound : N) (c : counts) : counts :=
  fold_left (fun c o =>
    if o_round o =? 0 then c else if bound <? o_round o then c else inc_count c (o_leader o))
    (rev pack) c.

(** node/src/manager/node.rs 203-284 [catchup_accumulator], leader part.  The nonce of the
    finalized block is that of the leader of the output that produced it.  The guard comparing
    the two epoch reads is between two reads of the same block here and cannot fire.  Note that
    the pack read is whatever pack is open, i.e. the one of the hint (storage/src/consensus.rs
    340-365 [ConsensusChain::new], 1193-1201 [count_leaders]). *)
Definition catchup_leaders (d : disk) : counts :=
  match d_tip d with
  | None => []
  | Some o =>
      let (e, r) := deconstruct_nonce (nonce (o_epoch o) (o_round o)) in
      if (0 <? r) && (e =? d_epoch d) then count_leaders (pack_of (d_log d) (d_hint d)) r [] else []
  end.

(** state-sync/src/lib.rs 174-208 [get_missing_consensus]: from the number of the header that
    produced the tip (consensus_bus.rs 787-808; default header, number 0, when there is none) to
    the last header of the pack of the hinted epoch (storage/src/consensus.rs 1049-1053,
    1111-1120; when that pack is empty, the executed one).  [fuel] numbers are looked up. *)
Definition by_number (log : list out) (n : N) : option out := find (fun o => o_num o =? n) log.
Fixpoint collect (log : list out) (n : N) (fuel : nat) : list out :=
  match fuel with
  | O => []
  | S f => match by_number log n with
           | Some o => o :: collect log (n + 1) f
           | None => collect log (n + 1) f
           end
  end.
Definition last_exec_num (d : disk) : N :=
  match d_tip d with
  | None => 0
  | Some o => match find (fun x => o_num x =? o_num o) (pack_of (d_log d) (o_epoch o)) with
              | Some x => o_num x
              | None => 0
              end
  end.
Definition last_db_num (d : disk) : N :=
  match rev (pack_of (d_log d) (d_hint d)) with
  | o :: _ => o_num o
  | [] => last_exec_num d
  end.
Definition get_missing (d : disk) : list out :=
  if last_exec_num d <? last_db_num d
  then collect (d_log d) (last_exec_num d + 1) (N.to_nat (last_db_num d - last_exec_num d))
  else [].

(** node/src/manager/node/start_epoch.rs 80-120 [replay_missed_consensus]: an output of another
    epoch aborts startup; the replay stops after an epoch-closing output. *)
Fixpoint replay_queue (epoch : N) (missing : list out) : option (list out) :=
  match missing with
  | [] => Some []
  | o :: t =>
      if negb (o_epoch o =? epoch) then None
      else if o_close o then Some [o]
      else option_map (cons o) (replay_queue epoch t)
  end.

(** Startup: node.rs 686-716 then run_epoch.rs 246-272: counters rebuilt, the pack of the
    registry's epoch opened, missing outputs queued for the engine. *)
Definition restart (d : disk) : option node :=
  option_map (fun q => {| n_disk := d; n_pack := d_epoch d; n_counts := catchup_leaders d; n_queue := q |})
             (replay_queue (d_epoch d) (get_missing d)).

(** A fresh database. *)
Definition genesis : node :=
  {| n_disk := {| d_log := []; d_hint := 0; d_tip := None; d_epoch := 0 |};
     n_pack := 0; n_counts := []; n_queue := [] |}.

Definition with_disk (s : node) (d : disk) : node :=
  {| n_disk := d; n_pack := n_pack s; n_counts := n_counts s; n_queue := n_queue s |}.

(** subscriber.rs 290-300 / storage/src/consensus.rs 746-792 [save_consensus_output], then the
    broadcast to the epoch manager which forwards it to the engine (run_epoch.rs 608-668). *)
Definition save (s : node) (o : out) : option node :=
  let d := n_disk s in
  let latest := match rev (d_log d) with [] => 0 | l :: _ => o_num l end in
  if (o_num o <=? latest) || negb (o_epoch o =? n_pack s) then None
  else Some {| n_disk := {| d_log := d_log d ++ [o]; d_hint := d_hint d; d_tip := d_tip d;
                            d_epoch := d_epoch d |};
               n_pack := n_pack s; n_counts := n_counts s; n_queue := n_queue s ++ [o] |}.
(** the background thread writes the slot files (consensus.rs 165-184) *)
Definition flush_hint (s : node) : node :=
  match rev (d_log (n_disk s)) with
  | [] => s
  | l :: _ => with_disk s {| d_log := d_log (n_disk s); d_hint := o_epoch l; d_tip := d_tip (n_disk s);
                             d_epoch := d_epoch (n_disk s) |}
  end.
(** the engine takes the next output *)
Definition exec_next (s : node) : option node :=
  match n_queue s with
  | [] => None
  | o :: q => let (d, c) := execute (n_disk s) (n_counts s) o in
              Some {| n_disk := d; n_pack := n_pack s; n_counts := c; n_queue := q |}
  end.
(** run_epoch.rs 684-712 [close_epoch] (waits for the closing output to be executed, then clears
    the accumulator) and the next run_epoch entry, which opens the pack of the new epoch. *)
Definition close_epoch (s : node) : option node :=
  match n_queue s with
  | [] => if n_pack s <? d_epoch (n_disk s)
          then Some {| n_disk := n_disk s; n_pack := d_epoch (n_disk s); n_counts := []; n_queue := [] |}
          else None
  | _ => None
  end.

(** Everything that can happen to a node. *)
Inductive ev := Save (o : out) | Flush | Exec | Close | Crash.
Definition step (s : node) (e : ev) : option node :=
  match e with
  | Save o => save s o
  | Flush => Some (flush_hint s)
  | Exec => exec_next s
  | Close => close_epoch s
  | Crash => restart (n_disk s)
  end.
