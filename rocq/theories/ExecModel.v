(* From committed outputs to blocks: engine/src/payload_builder.rs, engine/src/lib.rs,
   tn-reth/src/payload.rs, tn-reth/src/env/execution.rs, and the parts of tn-reth/src/evm/config.rs and
   evm/block.rs that decide what a block contains (C51).

   Parameters, about which nothing is assumed unless a theorem says so: the world state, decoded
   transactions, decoding with signer recovery, one EVM transaction, the system calls, the root and hash
   functions, and what an epoch's accumulator starts from.  All of them are functions of their arguments:
   that the EVM itself is deterministic is assumed.
   Simplified, all in one place: a root stands for what it commits to (the withdrawals are kept as the
   list); logs bloom, blob fields and requests hash are constants or functions of the receipts and left
   out; a block carries its post-state; metrics, tracing and canonical-state notifications are out. *)
From Verif Require Import Util Types CommitteeModel GasModel.
Local Open Scope N_scope.

(* types/src/worker/sealed_batch.rs: what execution reads of a batch *)
Record xbatch := { xb_txs : list N; xb_worker : N; xb_fee : N }.
(* types/src/primary/output.rs 33-77: number, consensus header digest, leader epoch, round and author,
   commit timestamp, shuffle seed, close flag, certified batches (address, batches), batch digests *)
Record xout := { xo_num : N; xo_digest : N; xo_epoch : N; xo_round : N; xo_leader : N; xo_time : N;
  xo_seed : N; xo_close : bool; xo_certs : list (N * list xbatch); xo_digests : list N }.

(* output.rs 199-208: flat positions (certificate, batch within it) *)
Definition flatten_batches (o : xout) : list (nat * nat) :=
  flat_map (fun p => map (pair (fst p)) (seq 0 (length (snd (snd p)))))
           (combine (seq 0 (length (xo_certs o))) (xo_certs o)).
(* payload_builder.rs 193-194: the two index operations; None = panic *)
Definition batch_at (o : xout) (p : nat * nat) : option (N * xbatch) :=
  match nth_error (xo_certs o) (fst p) with
  | Some (a, bs) => option_map (pair a) (nth_error bs (snd p))
  | None => None
  end.
(* output.rs 244-248 *)
Definition close_epoch_for_last_batch (o : xout) (i : nat) : option bool :=
  if xo_close o
  then Some (Nat.eqb (length (xo_digests o)) 0 || Nat.leb (length (xo_digests o)) (i + 1)) else None.

(* alloy Header as assembled in evm/block.rs 1519-1544; h_wd are the withdrawals the root commits to,
   h_extra the extra_data: empty or one 32-byte word *)
Record header := { h_parent : N; h_ommers : N; h_benef : N; h_stroot : N; h_txroot : N; h_rcroot : N;
  h_wd : list (N * N); h_time : N; h_mix : N; h_nonce : N; h_fee : N; h_number : N; h_limit : N;
  h_diff : N; h_used : N; h_extra : option N; h_beacon : N }.
(* tn-reth/src/payload.rs 30-86 *)
Record payload := { y_parent : header; y_benef : N; y_nonce : N; y_index : nat; y_time : N; y_ommers : N;
  y_beacon : N; y_fee : N; y_limit : N; y_mix : N; y_close : option N; y_worker : N }.
(* payload.rs 90-127 *)
Definition mk_payload (parent : header) (benef : N) (i : nat) (bd : N) (o : xout) (fee limit mix worker : N) : payload :=
  {| y_parent := parent; y_benef := benef; y_nonce := nonce (xo_epoch o) (xo_round o); y_index := i;
     y_time := xo_time o; y_ommers := bd; y_beacon := xo_digest o; y_fee := fee; y_limit := limit; y_mix := mix;
     y_close := match close_epoch_for_last_batch o i with Some true => Some (xo_seed o) | _ => None end;
     y_worker := worker |}.
(* evm/block.rs 144-186, without the accumulator (passed separately) *)
Record bctx := { c_parent : N; c_beacon : N; c_nonce : N; c_ommers : N; c_close : option N; c_diff : N }.
(* revm BlockEnv as filled by evm/config.rs 157-190 (the unread difficulty left out) *)
Record benv := { e_number : N; e_benef : N; e_time : N; e_mix : N; e_limit : N; e_fee : N }.
(* evm/config.rs 157-190 [next_evm_env] *)
Definition next_env (parent : header) (y : payload) : benv :=
  {| e_number := h_number parent + 1; e_benef := y_benef y; e_time := y_time y; e_mix := y_mix y;
     e_limit := y_limit y; e_fee := y_fee y |}.

(* gas_accumulator.rs: slots per worker, one entry per counted leader, the committee *)
Record xacc := { xa_slots : list slot; xa_leaders : list N; xa_cm : option committee }.
Definition count_leader (id : N) (a : xacc) : xacc :=
  {| xa_slots := xa_slots a; xa_leaders := xa_leaders a ++ [id]; xa_cm := xa_cm a |}.
Definition with_slots (s : list slot) (a : xacc) : xacc :=
  {| xa_slots := s; xa_leaders := xa_leaders a; xa_cm := xa_cm a |}.
(* gas_accumulator.rs 171-213: rewards per address, also the withdrawals *)
Definition rewards (a : xacc) : list (N * N) :=
  address_counts (xa_cm a) (fold_left inc_count (xa_leaders a) []).
(* gas_accumulator.rs 402-410 *)
Definition authority_address (a : xacc) (id : N) : option N :=
  match xa_cm a with Some cm => option_map a_addr (cm_authority cm id) | None => None end.

Inductive tres (state : Type) := TDone (st : state) (gas receipt : N) | TInvalid | TFatal.
Arguments TDone {state}. Arguments TInvalid {state}. Arguments TFatal {state}.

(* node-local faults of one persist attempt (env/execution.rs 206-277): before anything is written, after
   the static files advanced, or of another class *)
Inductive pfault := PNone | PEarly | PLate | POther.
(* What goes wrong while one output is executed: reads failing while block i is built, the persist
   attempts in order, the update channel being closed. *)
Record faults := { f_build : nat -> bool; f_persist : list pfault; f_send : bool }.

Section Exec.
Variables state tx : Type.
Variable recover : N -> option tx.                      (* decode + ecrecover *)
Variable tx_gas : tx -> N.                              (* gas limit *)
Variable transact : benv -> state -> tx -> tres state.  (* one transaction; InvalidTx vs. other errors *)
Variable root_call : benv -> N -> state -> option state.   (* EIP-4788, evm/block.rs 1141-1192 *)
Variable hist_call : benv -> N -> state -> option state.   (* EIP-2935, evm/block.rs 1195-1238 *)
(* the epoch-closing calls, evm/block.rs 1286-1362 and 377-563: nonce, seed, rewards, slots, own worker,
   own gas *)
Variable close_call : benv -> N -> N -> list (N * N) -> list slot -> N -> N -> state -> option state.
Variable entry : state -> list slot * option committee. (* accumulator of the epoch that starts in a state *)
Variable stroot : state -> N.
Variable txroot : list tx -> N.
Variable rcroot : list N -> N.
Variable hash : header -> N.
Variable lenient : N -> bool.                           (* adiri builds: epoch <= 160, payload_builder.rs 77-92 *)
Variable G : list xout.                                 (* the committed outputs, in order *)

Record block := { b_hdr : header; b_txs : list tx; b_state : state }.

(* evm/config.rs 238-257 [context_for_next_block] *)
Definition ctx_next (parent : header) (y : payload) : bctx :=
  {| c_parent := hash parent; c_beacon := y_beacon y; c_nonce := y_nonce y; c_ommers := y_ommers y;
     c_close := y_close y; c_diff := difficulty (N.of_nat (y_index y)) (y_worker y) |}.
(* evm/config.rs 203-236 [context_for_block]: rebuilt from the sealed header *)
Definition ctx_replay (h : header) : bctx :=
  {| c_parent := h_parent h; c_beacon := h_beacon h; c_nonce := h_nonce h; c_ommers := h_ommers h;
     c_close := h_extra h; c_diff := h_diff h |}.
(* evm/config.rs 129-155 [evm_env]: the environment of an existing block *)
Definition env_replay (h : header) : benv :=
  {| e_number := h_number h; e_benef := h_benef h; e_time := h_time h; e_mix := h_mix h;
     e_limit := h_limit h; e_fee := h_fee h |}.

(* env/execution.rs 119-176 with evm/block.rs 1380-1435: undecodable and invalid transactions are
   dropped, one that does not fit into the gas left is fatal, as is any other error *)
Fixpoint exec_txs (e : benv) (raw : list N) (used : N) (st : state) (done : list tx) (rc : list N)
  : option (N * state * list tx * list N) :=
  match raw with
  | [] => Some (used, st, rev done, rev rc)
  | b :: r =>
      match recover b with
      | None => exec_txs e r used st done rc
      | Some t =>
          if e_limit e - used <? tx_gas t then None
          else match transact e st t with
               | TDone st' g x => exec_txs e r (used + g) st' (t :: done) (x :: rc)
               | TInvalid => exec_txs e r used st done rc
               | TFatal => None
               end
      end
  end.

(* evm/block.rs 1268-1284, the transactions, 1286-1362, and the assembler 1468-1549.  Used both to build
   (execution.rs 84-201) and to re-execute a sealed block. *)
Definition run_block (e : benv) (c : bctx) (acc : xacc) (raw : list N) (st : state) : option block :=
  match (if first_batch (c_diff c) then root_call e (c_beacon c) st else Some st) with
  | None => None
  | Some st1 =>
      match hist_call e (c_parent c) st1 with
      | None => None
      | Some st2 =>
          match exec_txs e raw 0 st2 [] [] with
          | None => None
          | Some (used, st3, done, rc) =>
              match (match c_close c with
                     | Some seed => close_call e (c_nonce c) seed (rewards acc) (xa_slots acc)
                                      (worker_id_of (c_diff c)) used st3
                     | None => Some st3
                     end) with
              | None => None
              | Some st4 =>
                  Some {| b_hdr := {| h_parent := c_parent c; h_ommers := c_ommers c; h_benef := e_benef e;
                                      h_stroot := stroot st4; h_txroot := txroot done; h_rcroot := rcroot rc;
                                      h_wd := match c_close c with Some _ => rewards acc | None => [] end;
                                      h_time := e_time e; h_mix := e_mix e; h_nonce := c_nonce c; h_fee := e_fee e;
                                      h_number := e_number e; h_limit := e_limit e; h_diff := c_diff c;
                                      h_used := used; h_extra := c_close c; h_beacon := c_beacon c |};
                          b_txs := done; b_state := st4 |}
              end
          end
      end
  end.

(* state_by_block_hash: the in-memory blocks, then the database, newest first *)
Definition find_block (h : N) (l : list block) : option block := find (fun b => N.eqb (hash (b_hdr b)) h) l.

(* What the builder works on: in-memory blocks, canonical head, the local canonical header, the blocks
   executed so far (newest first), the accumulator. *)
Record work := { w_mem : list block; w_head : header; w_canon : header; w_done : list block; w_acc : xacc }.
(* env/execution.rs 84-201 with payload_builder.rs 288-323 [execute_payload] *)
Definition exec_payload (fail : bool) (db : list block) (y : payload) (raw : list N) (w : work) : option work :=
  if fail then None
  else match find_block (hash (y_parent y)) (w_mem w ++ db) with
       | None => None
       | Some pb =>
           match run_block (next_env (y_parent y) y) (ctx_next (y_parent y) y) (w_acc w) raw (b_state pb) with
           | None => None
           | Some b => Some {| w_mem := b :: w_mem w; w_head := b_hdr b; w_canon := b_hdr b;
                               w_done := b :: w_done w; w_acc := w_acc w |}
           end
       end.

Inductive lres := LOk (w : work) | LErr (w : work) | LMissing (w : work) | LPanic (w : work).
(* payload_builder.rs 185-250: the loop over the batches.  LErr: an error whose exit rolls back; LMissing:
   the exit without rollback (190-192); LPanic: an index or inc_block panic. *)
Fixpoint exec_batches (f : faults) (db : list block) (o : xout) (i : nat) (flat : list (nat * nat)) (w : work) : lres :=
  match flat with
  | [] => LOk w
  | p :: t =>
      match nth_error (xo_digests o) i with
      | None => LMissing w
      | Some bd =>
          match batch_at o p with
          | None => LPanic w
          | Some (addr, b) =>
              let y := mk_payload (w_canon w) addr i bd o (xb_fee b) 30000000 (N.lxor (xo_digest o) bd) (xb_worker b) in
              match exec_payload (f_build f i) db y (xb_txs b) w with
              | None => LErr w
              | Some w1 =>
                  match inc_block (xa_slots (w_acc w1)) (N.to_nat (xb_worker b)) (h_used (w_canon w1)) (h_limit (w_canon w1)) with
                  | None => LPanic w1
                  | Some sl => exec_batches f db o (S i) t
                                 {| w_mem := w_mem w1; w_head := w_head w1; w_canon := w_canon w1; w_done := w_done w1;
                                    w_acc := with_slots sl (w_acc w1) |}
                  end
              end
          end
      end
  end.

(* one attempt of persist_executed_output; the static files hold n_sf blocks *)
Inductive pres := POk | PRetry | PTerminal.
Definition persist_once (x : pfault) (db : list block) (sf : nat) (blocks : list block) : list block * nat * pres :=
  match x with
  | PEarly => (db, sf, PRetry)
  | POther => (db, sf, PTerminal)
  | PLate => if Nat.eqb sf (length db) then (db, (length db + length blocks)%nat, PRetry) else (db, sf, PTerminal)
  | PNone => if Nat.eqb sf (length db) then (blocks ++ db, (length db + length blocks)%nat, POk) else (db, sf, PTerminal)
  end.
(* payload_builder.rs 360-391: k retries left *)
Fixpoint persist_retry (k : nat) (fs : list pfault) (db : list block) (sf : nat) (blocks : list block) : list block * nat * bool :=
  let '(db1, sf1, r) := persist_once (hd PNone fs) db sf blocks in
  match r with
  | POk => (db1, sf1, true)
  | PTerminal => (db1, sf1, false)
  | PRetry => match k with O => (db1, sf1, false) | S k' => persist_retry k' (tl fs) db1 sf1 blocks end
  end.

(* Updates sent to consensus: round, number, digest, new tip (output.rs 29) *)
Definition update := (N * N * N * option header)%type.
Record node := {
  n_db : list block;           (* database: the chain, newest first, genesis last *)
  n_sf : nat;                  (* blocks in the static files *)
  n_mem : list block; n_head : header; n_final : header;   (* in-memory state, canonical head, finalized watch *)
  n_acc : xacc; n_queue : list xout; n_parent : header;     (* engine *)
  n_next : nat;                (* position in G of the next output forwarded *)
  n_wait : bool;               (* the closing output was forwarded; nothing more until the epoch is entered *)
  n_up : bool; n_sent : list update }.

Definition same_hash (a b : block) : bool := N.eqb (hash (b_hdr a)) (hash (b_hdr b)).
(* payload_builder.rs 406-420 [rollback_in_memory_output] *)
Definition rollback (adv mem : list block) : list block :=
  filter (fun b => negb (existsb (same_hash b) adv)) mem.

(* the engine task ends: nothing more is executed *)
Definition halt (mem : list block) (head : header) (acc : xacc) (db : list block) (sf : nat) (n : node) : node :=
  {| n_db := db; n_sf := sf; n_mem := mem; n_head := head; n_final := n_final n; n_acc := acc; n_queue := n_queue n;
     n_parent := n_parent n; n_next := n_next n; n_wait := n_wait n; n_up := false; n_sent := n_sent n |}.
Definition rolled (w : work) (anchor : header) (acc : xacc) (db : list block) (sf : nat) (n : node) : node :=
  halt (rollback (w_done w) (w_mem w)) anchor acc db sf n.

(* payload_builder.rs 252-285: commit, announce, finalize; lib.rs 289-295 *)
Definition finish (f : faults) (o : xout) (w : work) (n : node) : node :=
  let anchor := n_parent n in
  let '(db1, sf1, ok) := persist_retry 2 (f_persist f) (n_db n) (n_sf n) (w_done w) in
  if negb ok then rolled w anchor (w_acc w) db1 sf1 n
  else if negb (f_send f) then halt (w_mem w) (w_head w) (w_acc w) db1 sf1 n
  else {| n_db := db1; n_sf := sf1; n_mem := filter (fun b => h_number (w_canon w) <? h_number (b_hdr b)) (w_mem w);
          n_head := w_head w; n_final := w_canon w; n_acc := w_acc w; n_queue := n_queue n; n_parent := w_canon w;
          n_next := n_next n; n_wait := n_wait n; n_up := true;
          n_sent := n_sent n ++ [(xo_round o, xo_num o, xo_digest o, Some (w_canon w))] |}.

(* payload_builder.rs 24-285 [execute_consensus_output] on the output just popped *)
Definition execute (f : faults) (o : xout) (n : node) : node :=
  let acc := count_leader (xo_leader o) (n_acc n) in
  let flat := flatten_batches o in
  let w0 := {| w_mem := n_mem n; w_head := n_head n; w_canon := n_parent n; w_done := []; w_acc := acc |} in
  if negb (Nat.eqb (length flat) (length (xo_digests o))) && negb (lenient (xo_epoch o))
  then halt (n_mem n) (n_head n) acc (n_db n) (n_sf n) n
  else match flat with
  | [] =>
      if negb (xo_close o) then
        if f_send f
        then {| n_db := n_db n; n_sf := n_sf n; n_mem := n_mem n; n_head := n_head n; n_final := n_final n; n_acc := acc;
                n_queue := n_queue n; n_parent := n_parent n; n_next := n_next n; n_wait := n_wait n; n_up := true;
                n_sent := n_sent n ++ [(xo_round o, xo_num o, xo_digest o, None)] |}
        else halt (n_mem n) (n_head n) acc (n_db n) (n_sf n) n
      else
        match authority_address acc (xo_leader o) with
        | None => halt (n_mem n) (n_head n) acc (n_db n) (n_sf n) n
        | Some benef =>
            let y := mk_payload (n_parent n) benef 0 0 o (h_fee (n_parent n)) (h_limit (n_parent n)) (xo_digest o) 0 in
            match exec_payload (f_build f 0%nat) (n_db n) y [] w0 with
            | None => rolled w0 (n_parent n) acc (n_db n) (n_sf n) n
            | Some w => finish f o w n
            end
        end
  | _ =>
      match exec_batches f (n_db n) o 0 flat w0 with
      | LOk w => finish f o w n
      | LErr w => rolled w (n_parent n) (w_acc w) (n_db n) (n_sf n) n
      | LMissing w | LPanic w => halt (w_mem w) (w_head w) (w_acc w) (n_db n) (n_sf n) n
      end
  end.

(* ---- the node around it ---- *)
Definition closing (b : block) : bool := match h_extra (b_hdr b) with Some _ => true | None => false end.
Definition of_header (h : header) : bhdr := {| bh_diff := h_diff h; bh_used := h_used h; bh_limit := h_limit h |}.
(* the blocks of the running epoch (newest first) and the block it started from: the previous closing
   block, or genesis *)
Fixpoint epoch_blocks (db : list block) : list block * option block :=
  match db with
  | [] => ([], None)
  | [g] => ([], Some g)
  | b :: t => if closing b then ([], Some b) else let '(l, s) := epoch_blocks t in (b :: l, s)
  end.
Fixpoint position (d : N) (l : list xout) : option nat :=
  match l with
  | [] => None
  | o :: t => if N.eqb (xo_digest o) d then Some 0%nat else option_map S (position d t)
  end.
(* state-sync/src/lib.rs 174-208 [get_missing_consensus] with consensus_bus.rs 787-808: outputs after the
   one the tip came from; all of them when the tip is genesis.  (C34, C41 model the store it reads.) *)
Definition resume_at (db : list block) : nat :=
  match db with
  | [] | [_] => 0%nat
  | b :: _ => match position (h_beacon (b_hdr b)) G with Some i => S i | None => 0%nat end
  end.
(* node/src/manager/node.rs 203-284 [catchup_accumulator]: leaders of the tip's epoch up to the tip's
   round, unless the tip closed that epoch.  Counted oldest first (the order does not matter, C20);
   C34 models the pack it reads. *)
Definition rebuilt_leaders (db : list block) : list N :=
  match db with
  | [] | [_] => []
  | b :: _ =>
      if closing b then []
      else let '(e, r) := deconstruct_nonce (h_nonce (b_hdr b)) in
           map xo_leader (filter (fun o => (xo_epoch o =? e) && negb (xo_round o =? 0) && (xo_round o <=? r)) G)
  end.
Definition rebuild (db : list block) : option xacc :=
  match epoch_blocks db with
  | (_, None) => None
  | (l, Some s) =>
      let '(slots, cm) := entry (b_state s) in
      let hs := map (fun b => of_header (b_hdr b)) (rev l) in
      if forallb (fun h => (N.to_nat (worker_id_of (bh_diff h)) <? length slots)%nat) hs
      then option_map (fun sl => {| xa_slots := sl; xa_leaders := rebuilt_leaders db; xa_cm := cm |}) (fold_blocks slots hs)
      else None
  end.
Definition no_acc : xacc := {| xa_slots := []; xa_leaders := []; xa_cm := None |}.
(* process start: the static files are reconciled with the database (reth's startup check), memory is
   empty, the accumulator rebuilt, the missing outputs forwarded again; a failing rebuild stops the node *)
Definition restart (n : node) (g : block) : node :=
  let tip := match n_db n with b :: _ => b_hdr b | [] => b_hdr g end in
  let a := rebuild (n_db n) in
  {| n_db := n_db n; n_sf := length (n_db n); n_mem := []; n_head := tip; n_final := tip;
     n_acc := match a with Some x => x | None => no_acc end; n_queue := []; n_parent := tip;
     n_next := resume_at (n_db n); n_wait := false;
     n_up := match a with Some _ => true | None => false end; n_sent := n_sent n |}.

(* EvRecv: an output is forwarded and queued, engine/src/lib.rs 268-284 (bound 8), in the order of G (C41).
   EvExec: the next output is executed, 231-240, 286-295.
   EvEpoch: node/src/manager: the closing output was executed, the next epoch is entered.
   EvCrash: kill, crash or clean restart. *)
Inductive xev := EvRecv | EvExec (f : faults) | EvEpoch | EvCrash.
Definition with_queue (q : list xout) (k : nat) (wt : bool) (a : xacc) (n : node) : node :=
  {| n_db := n_db n; n_sf := n_sf n; n_mem := n_mem n; n_head := n_head n; n_final := n_final n; n_acc := a; n_queue := q;
     n_parent := n_parent n; n_next := k; n_wait := wt; n_up := n_up n; n_sent := n_sent n |}.
Definition xstep (g : block) (n : node) (e : xev) : node :=
  match e with
  | EvRecv =>
      if n_up n && negb (n_wait n) && (length (n_queue n) <? 8)%nat then
        match nth_error G (n_next n) with
        | Some o => with_queue (n_queue n ++ [o]) (S (n_next n)) (xo_close o) (n_acc n) n
        | None => n
        end
      else n
  | EvExec f =>
      if n_up n then
        match n_queue n with
        | o :: q => execute f o (with_queue q (n_next n) (n_wait n) (n_acc n) n)
        | [] => n
        end
      else n
  | EvEpoch =>
      match n_queue n, n_db n with
      | [], b :: _ =>
          if n_up n && n_wait n
          then with_queue [] (n_next n) false
                 {| xa_slots := fst (entry (b_state b)); xa_leaders := []; xa_cm := snd (entry (b_state b)) |} n
          else n
      | _, _ => n
      end
  | EvCrash => restart n g
  end.
Definition start (g : block) : node :=
  restart {| n_db := [g]; n_sf := 1; n_mem := []; n_head := b_hdr g; n_final := b_hdr g; n_acc := no_acc; n_queue := [];
             n_parent := b_hdr g; n_next := 0; n_wait := false; n_up := true; n_sent := [] |} g.
Definition xrun (g : block) (l : list xev) : node := fold_left (xstep g) l (start g).
End Exec.
Arguments b_hdr {state tx}. Arguments b_txs {state tx}. Arguments b_state {state tx}.
Arguments n_db {state tx}. Arguments n_sf {state tx}. Arguments n_mem {state tx}. Arguments n_head {state tx}.
Arguments n_final {state tx}. Arguments n_acc {state tx}. Arguments n_queue {state tx}. Arguments n_parent {state tx}.
Arguments n_next {state tx}. Arguments n_wait {state tx}. Arguments n_up {state tx}. Arguments n_sent {state tx}.
Arguments w_mem {state tx}. Arguments w_head {state tx}. Arguments w_canon {state tx}. Arguments w_done {state tx}.
Arguments w_acc {state tx}.
Arguments LOk {state tx}. Arguments LErr {state tx}. Arguments LMissing {state tx}. Arguments LPanic {state tx}.
