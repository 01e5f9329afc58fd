(* From a gossiped epoch vote to a stored certificate: the gossip gate of the primary
   (crates/consensus/primary/src/network/handler.rs 75-80, 259-289, 500-565, penalties in
   crates/consensus/primary/src/error/network.rs 116-252), the router of the vote collector
   (crates/node/src/manager/epoch_votes.rs 20, 272-385), its tasks (59-270, the turn itself is EpochModel.vturn), the closing
   of an epoch (crates/node/src/manager/node/close_epoch.rs 293-418) and the re-vote at start-up (epoch_votes.rs 386-432).
   Simplifications: keys, digests, signatures are numbers; a channel never fills up (capacity 10000), epochs do not reach
   u32::MAX; the steps of a task between two waits happen at once; a write of the epoch database happens at once and says
   whether it worked (the queue in front of it is C38).  Unused randomness, logs and shutdown are left out. *)
From Verif Require Import Util EpochModel.

(* who signs: this node's key and its (deterministic) signature of a digest; check_signature of a vote *)
Record venv := mk_venv { ve_me : N; ve_sign : N -> N; ve_ok : N -> N -> N -> bool }.

Definition MAX_EPOCH_VOTES : nat := 1024.        (* primary/src/network/mod.rs 90 *)
Definition MAX_QUEUES : nat := 5.                (* epoch_votes.rs 281, 313 *)
Definition RECOVERY_ATTEMPTS : nat := 5.         (* epoch_votes.rs 35 *)

(* epoch_votes.rs 21: one queue; q_id names its channel, q_rx: the receiver still waits in the queue *)
Record qent := mk_qent { q_ep : nat; q_id : nat; q_rx : bool }.
(* a collector task; t_run: its loop has not ended *)
Record vtask := mk_vtask { t_id : nat; t_rec : erec; t_st : vst; t_run : bool }.
(* y_dur: how many records are known to be on disk; y_bus: the new_epoch_votes channel; y_watch: a record the router has not
   seen yet; y_buf: what each channel holds *)
Record vsys := mk_vsys {
  y_db : edb; y_dur : nat; y_seen : list ((N * nat) * N); y_bus : list vote; y_watch : option erec;
  y_q : list qent; y_buf : nat -> list vote; y_next : nat; y_tasks : list vtask }.
Definition vsys_new : vsys := mk_vsys edb_new 0 [] [] None [] (fun _ => []) 0 [].

(* what is seen from outside: a vote of ours is published, a gossip message is refused *)
Inductive verr := BadTopic | WrongDigest | NotMember | BadSignature.
Inductive vpen := PNone | PMild | PFatal.
Inductive vout := OVote (v : vote) | ORefuse (e : verr).
(* error/network.rs 141-205: what the author of the message pays *)
Definition penalty (e : verr) : vpen :=
  match e with BadTopic => PFatal | WrongDigest => PMild | NotMember => PNone | BadSignature => PFatal end.

Definition keyeq (a b : N * nat) : bool := N.eqb (fst a) (fst b) && Nat.eqb (snd a) (snd b).
(* handler.rs 265-267 *)
Definition seen (l : list ((N * nat) * N)) (k : N * nat) : bool := existsb (fun p => keyeq (fst p) k) l.
(* handler.rs 283: the entry with the smallest number *)
Fixpoint oldest (l : list ((N * nat) * N)) : option ((N * nat) * N) :=
  match l with
  | [] => None
  | p :: r => match oldest r with Some o => if N.leb (snd p) (snd o) then Some p else Some o | None => Some p end
  end.
(* handler.rs 278-289 *)
Definition record_vote (l : list ((N * nat) * N)) (k : N * nat) : list ((N * nat) * N) :=
  let next := (fold_right (fun p m => N.max (snd p) m) 0 l + 1)%N in
  let l1 := if (MAX_EPOCH_VOTES <=? length l) && negb (seen l k)
            then match oldest l with Some o => filter (fun p => negb (keyeq (fst p) (fst o))) l | None => l end
            else l in
  (k, next) :: filter (fun p => negb (keyeq (fst p) k)) l1.

(* handler.rs 500-565 *)
Definition on_gossip (E : eenv) (V : venv) (topic : bool) (v : vote) (s : vsys) : list vout * vsys :=
  if negb topic then ([ORefuse BadTopic], s)
  else match epoch_by_number E (y_db s) (v_epoch v) with
       | Some (r, None) =>
         if negb (N.eqb (ee_dig E r) (v_hash v)) then ([ORefuse WrongDigest], s)
         else if negb (memN (v_key v) (er_com r)) then ([ORefuse NotMember], s)
         else if seen (y_seen s) (v_key v, v_epoch v) then ([], s)
         else if negb (ve_ok V (v_hash v) (v_key v) (v_sig v)) then ([ORefuse BadSignature], s)
         else ([], mk_vsys (y_db s) (y_dur s) (record_vote (y_seen s) (v_key v, v_epoch v)) (y_bus s ++ [v]) (y_watch s)
                           (y_q s) (y_buf s) (y_next s) (y_tasks s))
       | _ => ([], s)
       end.

Definition find_q (e : nat) (q : list qent) : option qent := find (fun x => q_ep x =? e) q.
(* epoch_votes.rs 281-284, 313-316: room for one more, then the new queue goes last *)
Definition push_q (q : list qent) (x : qent) : list qent := (if MAX_QUEUES <=? length q then tl q else q) ++ [x].
Fixpoint drop_q (e : nat) (q : list qent) : list qent :=
  match q with [] => [] | x :: r => if q_ep x =? e then r else x :: drop_q e r end.
Definition set_buf (b : nat -> list vote) (i : nat) (l : list vote) : nat -> list vote := fun j => if j =? i then l else b j.
(* whether somebody can still receive from the channel *)
Definition listening (s : vsys) (x : qent) : bool := q_rx x || existsb (fun t => (t_id t =? q_id x) && t_run t) (y_tasks s).

(* epoch_votes.rs 289-320 *)
Definition route (v : vote) (s : vsys) : vsys :=
  match find_q (v_epoch v) (y_q s) with
  | Some x =>
    if listening s x
    then mk_vsys (y_db s) (y_dur s) (y_seen s) (y_bus s) (y_watch s) (y_q s) (set_buf (y_buf s) (q_id x) (y_buf s (q_id x) ++ [v])) (y_next s) (y_tasks s)
    else mk_vsys (y_db s) (y_dur s) (y_seen s) (y_bus s) (y_watch s) (drop_q (v_epoch v) (y_q s)) (y_buf s) (y_next s) (y_tasks s)
  | None =>
    let open := mk_vsys (y_db s) (y_dur s) (y_seen s) (y_bus s) (y_watch s) (push_q (y_q s) (mk_qent (v_epoch v) (y_next s) true))
                        (set_buf (y_buf s) (y_next s) [v]) (S (y_next s)) (y_tasks s) in
    match last (map Some (y_q s)) None with
    | Some l => if v_epoch v =? S (q_ep l) then open else s
    | None => open
    end
  end.
Definition on_route (s : vsys) : vsys :=
  match y_bus s with
  | [] => s
  | v :: b => route v (mk_vsys (y_db s) (y_dur s) (y_seen s) b (y_watch s) (y_q s) (y_buf s) (y_next s) (y_tasks s))
  end.

(* epoch_votes.rs 272-286: the channel for a record, if nobody took it before *)
Definition take_channel (e : nat) (s : vsys) : option nat * vsys :=
  match find_q e (y_q s) with
  | Some x =>
    if q_rx x
    then (Some (q_id x), mk_vsys (y_db s) (y_dur s) (y_seen s) (y_bus s) (y_watch s)
                           (map (fun z => if q_id z =? q_id x then mk_qent (q_ep z) (q_id z) false else z) (y_q s)) (y_buf s) (y_next s) (y_tasks s))
    else (None, s)
  | None =>
    (Some (y_next s), mk_vsys (y_db s) (y_dur s) (y_seen s) (y_bus s) (y_watch s) (push_q (y_q s) (mk_qent e (y_next s) false))
                        (set_buf (y_buf s) (y_next s) []) (S (y_next s)) (y_tasks s))
  end.
(* our vote on a record: epoch.rs 50-57 *)
Definition own_vote (E : eenv) (V : venv) (r : erec) : vote := mk_vote (er_epoch r) (ee_dig E r) (ve_me V) (ve_sign V (ee_dig E r)).
Definition publish (E : eenv) (V : venv) (r : erec) : list vout := if memN (ve_me V) (er_com r) then [OVote (own_vote E V r)] else [].
(* epoch_votes.rs 341-382, with the start of the task, 66-92 *)
Definition on_record (E : eenv) (V : venv) (s : vsys) : list vout * vsys :=
  match y_watch s with
  | None => ([], s)
  | Some r =>
    let s0 := mk_vsys (y_db s) (y_dur s) (y_seen s) (y_bus s) None (y_q s) (y_buf s) (y_next s) (y_tasks s) in
    match take_channel (er_epoch r) s0 with
    | (Some i, s1) =>
      (publish E V r,
       mk_vsys (y_db s1) (y_dur s1) (y_seen s1) (y_bus s1) (y_watch s1) (y_q s1) (y_buf s1) (y_next s1)
               (mk_vtask i r (vstart r (ve_me V) (ve_sign V (ee_dig E r))) true :: y_tasks s1))
    | (None, s1) => ([], s1)
    end
  end.

(* epoch_votes.rs 213-262: answers, one per attempt; w1, w2: whether the two appends work *)
Fixpoint recover (E : eenv) (w1 w2 : bool) (e : nat) (d : edb) (answers : list (option (erec * ecert))) : edb :=
  match answers with
  | [] => d
  | None :: r => recover E w1 w2 e d r
  | Some (x, c) :: r =>
    match validate_downloaded E d e x c with
    | EValid => snd (db_save E w1 w2 d x c)
    | _ => recover E w1 w2 e d r
    end
  end.
(* epoch_votes.rs 172-262 *)
Definition finish (E : eenv) (w1 w2 : bool) (r : erec) (st : vst) (answers : list (option (erec * ecert))) (d : edb) : edb :=
  if vs_reached st
  then match vfinish E r st with Some c => snd (db_save_cert w2 d (ec_hash c) c) | None => d end
  else recover E w1 w2 (er_epoch r) d (firstn RECOVERY_ATTEMPTS answers).

Definition put_task (i : nat) (st : vst) (run : bool) (l : list vtask) : list vtask :=
  map (fun t => if t_id t =? i then mk_vtask (t_id t) (t_rec t) st run else t) l.
(* epoch_votes.rs 101-170: one wait of one task; tmo: the wait timed out *)
Definition on_task (E : eenv) (V : venv) (i : nat) (tmo w1 w2 : bool) (answers : list (option (erec * ecert))) (s : vsys) : list vout * vsys :=
  match find (fun t => t_id t =? i) (y_tasks s) with
  | Some t =>
    if negb (t_run t) then ([], s)
    else
      let '(ev, b) :=
        if tmo then (Some VTimeout, y_buf s)
        else match y_buf s i with
             | v :: r => (Some (VVote v), set_buf (y_buf s) i r)
             | [] => if existsb (fun x => q_id x =? i) (y_q s) then (None, y_buf s) else (Some VClosed, y_buf s)
             end in
      match ev with
      | None => ([], s)
      | Some ev =>
        let '(st, fin) := vturn E (t_rec t) (t_st t) ev in
        (if fin then [] else if tmo then publish E V (t_rec t) else [],
         mk_vsys (if fin then finish E w1 w2 (t_rec t) st answers (y_db s) else y_db s) (y_dur s) (y_seen s) (y_bus s) (y_watch s)
                 (y_q s) b (y_next s) (put_task i st (negb fin) (y_tasks s)))
      end
  | None => ([], s)
  end.

Definition set_db (s : vsys) (d : edb) (n : nat) (w : option erec) : vsys :=
  mk_vsys d n (y_seen s) (y_bus s) w (y_q s) (y_buf s) (y_next s) (y_tasks s).
(* close_epoch.rs 318-334: a record we need not build again *)
Definition have_record (E : eenv) (d : edb) (e : nat) : option erec :=
  match epoch_by_number E d e with
  | Some (x, Some _) => Some x
  | Some (x, None) => if e =? 0 then None else Some x
  | None => None
  end.
(* close_epoch.rs 311-418; r: the record build_epoch_record gives; w, wp: whether the append and the flush work *)
Definition on_close (E : eenv) (r : erec) (w wp : bool) (s : vsys) : vsys :=
  match have_record E (y_db s) (er_epoch r) with
  | Some x => set_db s (y_db s) (y_dur s) (Some x)
  | None =>
    match db_save_record w (y_db s) r with
    | (true, d) => if wp then set_db s d (length (db_recs d)) (Some r) else set_db s d (y_dur s) (y_watch s)
    | (false, d) => set_db s d (y_dur s) (y_watch s)
    end
  end.
(* epoch_votes.rs 417-432 *)
Definition revote (E : eenv) (d : edb) : option erec :=
  match latest_record d with
  | Some r => match cget (db_certs d) (ee_dig E r) with None => Some r | Some _ => None end
  | None => None
  end.
(* a crash and a start: the first n records (all the flushed ones among them) and some certificates are on disk, and what a
   start finds stays *)
Definition on_restart (E : eenv) (n : nat) (keep : N -> bool) (s : vsys) : vsys :=
  let recs := firstn (Nat.max n (y_dur s)) (db_recs (y_db s)) in
  let d := seed_mark E (mk_edb recs (filter (fun p => keep (fst p)) (db_certs (y_db s))) None 0) in
  mk_vsys d (length recs) [] [] (revote E d) [] (fun _ => []) (y_next s) [].

Inductive vevt :=
| GGossip (topic : bool) (v : vote)
| GRoute
| GRecord
| GTask (i : nat) (tmo w1 w2 : bool) (answers : list (option (erec * ecert)))
| GClose (r : erec) (w wp : bool)
| GIngest (e : nat) (r : erec) (c : ecert) (w1 w2 : bool)     (* state-sync/src/epoch.rs 50-75 *)
| GDummy (r : erec)                                           (* run_epoch.rs 229-237 *)
| GFlush
| GRestart (n : nat) (keep : N -> bool).

Definition ystep (E : eenv) (V : venv) (s : vsys) (g : vevt) : list vout * vsys :=
  match g with
  | GGossip topic v => on_gossip E V topic v s
  | GRoute => ([], on_route s)
  | GRecord => on_record E V s
  | GTask i tmo w1 w2 answers => on_task E V i tmo w1 w2 answers s
  | GClose r w wp => ([], on_close E r w wp s)
  | GIngest e r c w1 w2 => ([], set_db s (ingest E (y_db s) e r c w1 w2) (y_dur s) (y_watch s))
  | GDummy r => ([], set_db s (snd (db_save_dummy (y_db s) r)) (y_dur s) (y_watch s))
  | GFlush => ([], set_db s (y_db s) (length (db_recs (y_db s))) (y_watch s))
  | GRestart n keep => ([], on_restart E n keep s)
  end.
Fixpoint yrun (E : eenv) (V : venv) (s : vsys) (gs : list vevt) : list vout * vsys :=
  match gs with
  | [] => ([], s)
  | g :: r => let '(o, s1) := ystep E V s g in let '(o', s2) := yrun E V s1 r in (o ++ o', s2)
  end.
