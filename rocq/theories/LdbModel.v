(* Model of crates/storage/src/layered_db.rs: a memory layer in front of a persistent database written by one
   background thread fed through a FIFO channel.  One instance holds several tables; a key is the pair
   (table, key).  Values are a parameter. *)
From Verif Require Import Util.
Local Open Scope N_scope.

Definition key : Type := N * N.
Definition key_eqb (a b : key) : bool := (fst a =? fst b) && (snd a =? snd b).
Lemma key_eqb_eq a b : key_eqb a b = true <-> a = b.
Proof.
  unfold key_eqb. rewrite andb_true_iff, !N.eqb_eq. destruct a, b; simpl. split.
  - intros [-> ->]. reflexivity.
  - intros H. inversion H. auto.
Qed.

Section Ldb.
Variable V : Type.
Definition table := key -> option V.

(* layered_db.rs 95-117, 489-518: the three mutations (insert, remove, clear_table). *)
Inductive op := Ins (k : key) (v : V) | Del (k : key) | Clr (t : N).
Definition apply_op (f : table) (o : op) : table :=
  match o with
  | Ins k v => fun x => if key_eqb x k then Some v else f x
  | Del k => fun x => if key_eqb x k then None else f x
  | Clr t => fun x => if fst x =? t then None else f x
  end.
Definition apply_all (ops : list op) (f : table) : table := fold_left apply_op ops f.

(* layered_db.rs 715-741 `DBMessage` (Stats and Shutdown carry no data and are left out: Shutdown is a
   crash after which nothing more is processed). *)
Inductive msg := MOp (o : op) | MStart | MCommit | MEnd | MBarrier (id : N) | MCaughtUp.

(* layered_db.rs 364-373 plus the locals of `db_run` 209-224.  `l_acks` are the oneshot answers already sent:
   true = Committed. `l_txn` is the open physical transaction: staged writes and the number of logical
   transactions riding on it. *)
Record ldb := mkLdb {
  l_full : bool;              (* full_memory *)
  l_mem : table;
  l_disk : table;
  l_queue : list msg;
  l_txn : option (list op * N);
  l_pend : list N;            (* pending_durable *)
  l_failed : bool;            (* commit_failed *)
  l_acks : list (N * bool);
  l_retained : list key       (* committed_inserts (cache mode only) *)
}.

(* 394-403 `open` then 435-444 `open_table` for every table: in full-memory mode the disk is loaded. *)
Definition l_open (full : bool) (disk : table) : ldb :=
  mkLdb full (if full then disk else fun _ => None) disk [] None [] false [] [].

(* 481-487 `get`: memory first, then the persistent layer. *)
Definition l_get (d : ldb) (k : key) : option V :=
  match l_mem d k with Some v => Some v | None => l_disk d k end.

(* 489-518 `insert`, `remove`, `clear_table` (and 96-117 through a transaction: same effects). *)
Definition l_do (o : op) (d : ldb) : ldb :=
  mkLdb (l_full d) (apply_op (l_mem d) o) (l_disk d) (l_queue d ++ [MOp o]) (l_txn d) (l_pend d)
        (l_failed d) (l_acks d) (l_retained d).

(* every other request only enqueues a message: write_txn 453-461, commit 126-135, TxnGuard::drop 61-71,
   persist 567-586, sync_persist 588-605 *)
Definition l_send (m : msg) (d : ldb) : ldb :=
  mkLdb (l_full d) (l_mem d) (l_disk d) (l_queue d ++ [m]) (l_txn d) (l_pend d)
        (l_failed d) (l_acks d) (l_retained d).

Definition clear_keys (ks : list key) (f : table) : table :=
  fun x => if existsb (key_eqb x) ks then None else f x.

(* 195-204 `ack_pending_durable` *)
Definition ack_pending (d : ldb) : ldb :=
  mkLdb (l_full d) (l_mem d) (l_disk d) (l_queue d) (l_txn d) [] (l_failed d)
        (l_acks d ++ map (fun i => (i, negb (l_failed d))) (l_pend d)) (l_retained d).

(* 166-193 `end_txn` together with its two callers 240-264: [ok] is the outcome of the physical commit. *)
Definition end_txn (ok : bool) (d : ldb) : ldb :=
  match l_txn d with
  | None => ack_pending d
  | Some (ops, n) =>
      if n <=? 1 then
        ack_pending (mkLdb (l_full d)
          (if ok && negb (l_full d) then clear_keys (l_retained d) (l_mem d) else l_mem d)
          (if ok then apply_all ops (l_disk d) else l_disk d)
          (l_queue d) None (l_pend d) (l_failed d || negb ok) (l_acks d)
          (if ok && negb (l_full d) then [] else l_retained d))
      else mkLdb (l_full d) (l_mem d) (l_disk d) (l_queue d) (Some (ops, n - 1)) (l_pend d)
                 (l_failed d) (l_acks d) (l_retained d)
  end.

Definition set_queue (d : ldb) (q : list msg) : ldb :=
  mkLdb (l_full d) (l_mem d) (l_disk d) q (l_txn d) (l_pend d) (l_failed d) (l_acks d) (l_retained d).

(* 228-340 one turn of the `db_run` loop on message [m]; [ok] is the outcome of the I/O it performs.
   Compaction is not modelled (it does not change contents). *)
Definition run_msg (ok : bool) (m : msg) (d : ldb) : ldb :=
  match m with
  | MStart =>
      match l_txn d with
      | Some (ops, n) => mkLdb (l_full d) (l_mem d) (l_disk d) (l_queue d) (Some (ops, n + 1)) (l_pend d)
                               (l_failed d) (l_acks d) (l_retained d)
      | None => if ok then mkLdb (l_full d) (l_mem d) (l_disk d) (l_queue d) (Some ([], 1)) (l_pend d)
                               (l_failed d) (l_acks d) (l_retained d)
                else d
      end
  | MCommit | MEnd => end_txn ok d
  | MOp o =>
      match l_txn d with
      | Some (ops, n) =>
          mkLdb (l_full d) (l_mem d) (l_disk d) (l_queue d)
                (Some ((if ok then ops ++ [o] else ops), n)) (l_pend d) (l_failed d || negb ok) (l_acks d)
                (match o with Ins k _ => if l_full d then l_retained d else l_retained d ++ [k]
                            | _ => l_retained d end)
      | None =>
          mkLdb (l_full d)
                (match o with Ins k _ => if ok && negb (l_full d) then clear_keys [k] (l_mem d) else l_mem d
                            | _ => l_mem d end)
                (if ok then apply_op (l_disk d) o else l_disk d)
                (l_queue d) None (l_pend d) (l_failed d || negb ok) (l_acks d) (l_retained d)
      end
  | MCaughtUp => d      (* 316-318: answers at once, whatever is open: it says nothing about durability *)
  | MBarrier i =>
      match l_txn d with
      | Some _ => mkLdb (l_full d) (l_mem d) (l_disk d) (l_queue d) (l_txn d) (l_pend d ++ [i]) (l_failed d)
                        (l_acks d) (l_retained d)
      | None => mkLdb (l_full d) (l_mem d) (l_disk d) (l_queue d) (l_txn d) (l_pend d) (l_failed d)
                      (l_acks d ++ [(i, negb (l_failed d))]) (l_retained d)
      end
  end.

(* the background thread takes the oldest message *)
Definition l_run (ok : bool) (d : ldb) : ldb :=
  match l_queue d with
  | [] => d
  | m :: q => run_msg ok m (set_queue d q)
  end.

(* a crash loses everything but the committed disk contents; the process then reopens the database *)
Definition l_crash (d : ldb) : ldb := l_open (l_full d) (l_disk d).
End Ldb.

Arguments Ins {V}. Arguments Del {V}. Arguments Clr {V}.
Arguments apply_op {V}. Arguments apply_all {V}.
Arguments MOp {V}. Arguments MStart {V}. Arguments MCommit {V}. Arguments MEnd {V}. Arguments MBarrier {V}.
Arguments MCaughtUp {V}.
Arguments mkLdb {V}. Arguments l_full {V}. Arguments l_mem {V}. Arguments l_disk {V}. Arguments l_queue {V}.
Arguments l_txn {V}. Arguments l_pend {V}. Arguments l_failed {V}. Arguments l_acks {V}. Arguments l_retained {V}.
Arguments l_open {V}. Arguments l_get {V}. Arguments l_do {V}. Arguments l_send {V}. Arguments end_txn {V}.
Arguments run_msg {V}. Arguments l_run {V}. Arguments l_crash {V}. Arguments ack_pending {V}.
Arguments set_queue {V}. Arguments clear_keys {V}.
