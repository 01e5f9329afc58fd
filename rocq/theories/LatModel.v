(** Model of the record of the latest consensus output: two slot files written in turn
    (crates/storage/src/consensus.rs 36-293 `LatestConsensus`, 1064-1089 `write_latest_consensus_hint`). *)
From Verif Require Import Util WireModel.
Local Open Scope N_scope.

(** consensus.rs 38-43 *)
Inductive which := Slot1 | Slot2.
(** consensus.rs 242-245: the other one *)
Definition other (w : which) : which := match w with Slot1 => Slot2 | Slot2 => Slot1 end.

Section Slots.
Variable crc : bytes -> N.                     (* crc32fast over the concatenation of the updates *)

(** consensus.rs 118-129 [encode_slot] *)
Definition encode_slot (v : N * N) : bytes :=
  let b := le 4 (fst v) ++ le 8 (snd v) in b ++ le 4 (crc b).
(** consensus.rs 91-114 [read_slot]; [None] = an error (short file or wrong checksum). An empty file is (0, 0). *)
Definition read_slot (b : bytes) : option (N * N) :=
  match b with
  | [] => Some (0, 0)
  | _ => if (length b <? 16)%nat then None
         else if crc (firstn 12 b) =? unle (firstn 4 (skipn 12 b))
              then Some (unle (firstn 4 b), unle (firstn 8 (skipn 4 b))) else None
  end.
(** consensus.rs 145-152: an unreadable slot counts as (0, 0) *)
Definition slot_value (b : bytes) : N * N := match read_slot b with Some v => v | None => (0, 0) end.
(** consensus.rs 195-236: which slot is the newer one *)
Definition choose_slot (v1 v2 : N * N) : which :=
  if fst v1 =? fst v2 then if snd v2 <? snd v1 then Slot1 else Slot2
  else if fst v2 <? fst v1 then Slot1 else Slot2.

(** A file: [f_now] what reads return, [f_disk] what is on disk for sure, [f_dirty] the contents the file had since the
    last successful sync, newest first (empty: [f_now] is on disk). *)
Record file := mkF { f_now : bytes; f_disk : bytes; f_dirty : list bytes }.
(** seek to 0 and write the first [k] bytes of [b] (all 16, or fewer when the write fails on the way) *)
Definition overwrite (k : nat) (b : bytes) (f : file) : file :=
  let c := firstn k b ++ skipn k (f_now f) in mkF c (f_disk f) (c :: f_dirty f).
Definition sync (ok : bool) (f : file) : file := if ok then mkF (f_now f) (f_now f) [] else f.

(** consensus.rs 80-87 (persist acknowledgements are counted) *)
Inductive cmd := Update (old : N) (v : N * N) (w : which) | Persist | Shutdown.
Record lc := mkL {
  l_mem : N * N; l_cur : which;                 (* 46-54 *)
  l_s1 : file; l_s2 : file;
  l_queue : list cmd;                           (* the channel to the background thread, oldest first *)
  l_open : bool;                                (* the background thread runs *)
  l_acks : N                                    (* persists acknowledged *)
}.
Definition file_of (w : which) (s : lc) : file := match w with Slot1 => l_s1 s | Slot2 => l_s2 s end.
Definition set_file (w : which) (f : file) (s : lc) : lc :=
  match w with
  | Slot1 => mkL (l_mem s) (l_cur s) f (l_s2 s) (l_queue s) (l_open s) (l_acks s)
  | Slot2 => mkL (l_mem s) (l_cur s) (l_s1 s) f (l_queue s) (l_open s) (l_acks s)
  end.

(** consensus.rs 132-238 [new] over two existing (or just created, empty) files *)
Definition open_slots (f1 f2 : file) : lc :=
  let v1 := slot_value (f_now f1) in let v2 := slot_value (f_now f2) in
  match choose_slot v1 v2 with
  | Slot1 => mkL v1 Slot1 f1 f2 [] true 0
  | Slot2 => mkL v2 Slot2 f1 f2 [] true 0
  end.

(** consensus.rs 240-262 [update] (a full channel only delays) *)
Definition update (v : N * N) (s : lc) : lc :=
  let w := other (l_cur s) in
  mkL v w (l_s1 s) (l_s2 s) (l_queue s ++ [Update (fst (l_mem s)) v w]) (l_open s) (l_acks s).
(** 265-269 [persist], 66-78 [drop] *)
Definition enqueue (c : cmd) (s : lc) : lc :=
  mkL (l_mem s) (l_cur s) (l_s1 s) (l_s2 s) (l_queue s ++ [c]) (l_open s) (l_acks s).
(** consensus.rs 155-193: one turn of the background thread. [k]: bytes the write manages (16 = success); [y1], [y2]: whether
    the syncs succeed. Failures are logged and otherwise ignored. *)
Definition turn (k : nat) (y1 y2 : bool) (s : lc) : lc :=
  match l_open s, l_queue s with
  | true, c :: q =>
      let s := mkL (l_mem s) (l_cur s) (l_s1 s) (l_s2 s) q true (l_acks s) in
      match c with
      | Update old v w =>
          let f := overwrite k (encode_slot v) (file_of w s) in
          if (16 <=? k)%nat && negb (old =? fst v) then set_file w (sync y1 f) s else set_file w f s
      | Persist => mkL (l_mem s) (l_cur s) (sync y1 (l_s1 s)) (sync y2 (l_s2 s)) (l_queue s) true (l_acks s + 1)
      | Shutdown => mkL (l_mem s) (l_cur s) (sync y1 (l_s1 s)) (sync y2 (l_s2 s)) (l_queue s) false (l_acks s)
      end
  | _, _ => s
  end.

(** What a crash of the machine can leave of a file with unsynced writes: an old or a newer content, or anything that
    does not check. *)
Definition survives (f : file) (b : bytes) : Prop :=
  match f_dirty f with
  | [] => b = f_now f
  | _ => b = f_disk f \/ In b (f_dirty f) \/ read_slot b = None
  end.
Inductive ev :=
| EUpdate (v : N * N) | EPersist | EShutdown | ETurn (k : nat) (y1 y2 : bool)
| EKill                             (* the process ends and starts again: the files keep their contents *)
| ECrash (b1 b2 : bytes).           (* the machine crashes, b1 and b2 are found on disk *)
Definition fresh (b : bytes) : file := mkF b b [].
Definition step (s : lc) (e : ev) : lc :=
  match e with
  | EUpdate v => update v s
  | EPersist => enqueue Persist s
  | EShutdown => enqueue Shutdown s
  | ETurn k y1 y2 => turn k y1 y2 s
  | EKill => open_slots (l_s1 s) (l_s2 s)
  | ECrash b1 b2 => open_slots (fresh b1) (fresh b2)
  end.
Definition run (s : lc) (l : list ev) : lc := fold_left step l s.
(** consensus.rs 1064-1089 [write_latest_consensus_hint]: slot 1 truncated, written and synced *)
Definition write_hint (v : N * N) (s : file * file) : file * file := (fresh (encode_slot v), snd s).
End Slots.
