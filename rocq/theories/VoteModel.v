(* Model of the vote service: crates/consensus/primary/src/network/handler.rs 567-1130 (`vote`, `vote_inner`,
   `check_for_missing_parents`, `try_accept_unknown_certs`), crates/consensus/primary/src/state_sync/header_validator.rs
   and crates/storage/src/stores/vote_digest_store.rs, on top of the layered database of LdbModel.v.

   A node is a state machine; one event is one atomic step of one request task, one turn of the database thread, an
   unrelated database access, a crash, a restart of the handler or an epoch change.  Tasks interleave arbitrarily
   between their await points and also between the store read, the store write and the persist request. *)
From Verif Require Import Util Types CommitteeModel CertModel LdbModel.
Local Open Scope N_scope.

(* types/src/primary/vote.rs 161-189 `VoteInfo` *)
Record vinfo := mkVinfo { vi_epoch : N; vi_round : N; vi_digest : N }.
Definition vi_of (h : header) : vinfo := mkVinfo (h_epoch h) (h_round h) (h_digest h).

(* the `Votes` table of the epoch database (vote_digest_store.rs 15-30): one entry per header author *)
Definition VOTES : N := 0.
Definition vkey (a : N) : key := (VOTES, a).

(* network/message.rs 240-276 `PrimaryResponse`, the variants vote can produce. A vote is identified with the header
   it signs (the voter is this node). *)
Inductive resp := RVote (h : header) | RMissing (l : list N) | RRecoverable | RError.

(* handler.rs `auth_last_vote`: (epoch, round, digest, last response) per author, behind the author's lock *)
Record centry := mkCentry { ce_epoch : N; ce_round : N; ce_digest : N; ce_resp : option resp }.

(* what the checks of `vote_inner` see of the rest of the node when each of them runs *)
Record venv := mkVenv {
  e_committed : N; e_gc_depth : N;      (* 730-731 *)
  e_seed_ok : bool;                     (* 762-778 seed signature valid, or epoch before the fork *)
  e_exec_ok : bool;                     (* 783-791 wait_for_execution *)
  e_primary_round : N; e_age_limit : N; (* 1051-1053 *)
  e_unknown : list N;                   (* 1047 parents neither stored nor pending *)
  e_requested : list N;                 (* 1083-1092 of those, the ones already requested *)
  e_parent_sigs : bool;                 (* 814-826 every supplied parent carries a signature *)
  e_accept_ok : bool;                   (* 828-829 try_accept_unknown_certs *)
  e_genesis : N -> option cert;         (* header_validator.rs 46-52 *)
  e_store : N -> option cert;           (* header_validator.rs 54-63, once notify_read has answered *)
  e_batches_ok : bool;                  (* 886 sync_header_batches *)
  e_now : N; e_drift : N                (* 889-913 *)
}.

Inductive vcheck := VPass | VMissing (l : list N) | VErr (recoverable : bool).

Fixpoint lookup_all (f : N -> option cert) (ds : list N) : option (list cert) :=
  match ds with
  | [] => Some []
  | d :: t => match f d, lookup_all f t with Some c, Some l => Some (c :: l) | _, _ => None end
  end.

(* handler.rs 845-880: the loop over the parents *)
Fixpoint parent_loop (c : committee) (h : header) (seen : list N) (stake : N) (ps : list cert) : option N :=
  match ps with
  | [] => Some stake
  | p :: t =>
    if negb (c_epoch p =? h_epoch h) then None
    else if negb (c_round p + 1 =? h_round h) then None
    else if h_created h <? h_created (c_header p) then None
    else if memN (c_origin p) seen then None
    else parent_loop c h (c_origin p :: seen) (stake + voting_power_by_id c (c_origin p)) t
  end.

(* network/message.rs 284-289 `into_error_ref`: one epoch ahead is recoverable *)
Definition err_of_validate (h : header) (c : committee) (e : dag_err) : vcheck :=
  match e with InvalidEpoch => VErr (h_epoch h =? cm_epoch c + 1) | _ => VErr false end.

(* handler.rs 712-914, up to the read of the vote store. `None` = still waiting (a parent is not stored yet). *)
Definition vote_checks (c : committee) (e : venv) (h : header) (ps : list cert) : option vcheck :=
  match header_validate h c with
  | Err er => Some (err_of_validate h c er)
  | Ok _ =>
    if h_round h =? 0 then Some (VErr false)
    else if e_committed e + e_gc_depth e <? h_round h then Some (VErr false)
    else if cm_size c <? N.of_nat (length ps) then Some (VErr false)
    else match cm_authority c (h_author h) with
    | None => Some (VErr false)
    | Some _ =>
      if negb (e_seed_ok e) then Some (VErr false)
      else if negb (e_exec_ok e) then Some (VErr false)
      else
        let early :=
          match ps with
          | [] =>
            (* 1047 identify_unkown_parents: header_validator.rs 200-228; 1050-1061 age limit *)
            if (h_round h =? 1) && negb (forallb (fun d => match e_genesis e d with Some _ => true | None => false end) (h_parents h))
            then Some (VErr false)
            else if h_round h <? e_primary_round e - e_age_limit e then Some (VErr false)
            else
              let unknown := if h_round h =? 1 then [] else e_unknown e in
              match filter (fun d => negb (memN d (e_requested e))) unknown with
              | [] => None
              | m => Some (VMissing m)
              end
          | _ => if e_parent_sigs e && e_accept_ok e then None else Some (VErr false)
          end in
        match early with
        | Some r => Some r
        | None =>
          let stored := if h_round h =? 1 then Some (lookup_all (e_genesis e) (h_parents h))
                        else match lookup_all (e_store e) (h_parents h) with Some l => Some (Some l) | None => None end in
          match stored with
          | None => None
          | Some None => Some (VErr false)
          | Some (Some parents) =>
            match parent_loop c h [] 0 parents with
            | None => Some (VErr false)
            | Some stake =>
              if negb (cm_quorum c <=? stake) then Some (VErr false)
              else if negb (e_batches_ok e) then Some (VErr false)
              else if (e_now e <? h_created h) && (e_drift e <? h_created h - e_now e) then Some (VErr false)
              else Some VPass
            end
          end
        end
    end
  end.

(* a request in progress *)
Inductive vtask :=
| TMatch (h : header)                        (* 585-587 stored digest equals this header's; before persist *)
| TFast (h : header) (b : N)                 (* 602-611 waiting for barrier b, no lock held *)
| TWant (h : header) (ps : list cert)        (* 618-620 waiting for the author's lock *)
| TInner (h : header) (ps : list cert)       (* lock held, 678-682 inside vote_inner *)
| TChecked (h : header)                      (* 914 all checks passed *)
| TRead (h : header) (prev : option vinfo)   (* 932-936 vote store read *)
| TPersist (h : header)                      (* 1014 or 990 record written, or found equal; before persist *)
| TWait (h : header) (b : N).                (* 1028-1036 / 994-1002 waiting for barrier b *)

Definition locked (t : vtask) : option N :=
  match t with
  | TMatch _ | TFast _ _ | TWant _ _ => None
  | TInner h _ | TChecked h | TRead h _ | TPersist h | TWait h _ => Some (h_author h)
  end.

Record vnode := mkVnode {
  n_com : committee;
  n_db : ldb vinfo;
  n_next : N;                        (* fresh barrier identifiers *)
  n_tasks : list vtask;
  n_cache : N -> option centry;
  n_out : list header;               (* headers whose vote was returned to a peer, oldest first *)
  n_fresh : list header;             (* headers recorded in the vote store, oldest first (history) *)
  n_checked : list (committee * venv * header)  (* headers that passed the checks (history) *)
}.

Fixpoint replace {A} (i : nat) (x : A) (l : list A) : list A :=
  match i, l with
  | _, [] => []
  | O, _ :: t => x :: t
  | S j, y :: t => y :: replace j x t
  end.
Fixpoint drop_at {A} (i : nat) (l : list A) : list A :=
  match i, l with
  | _, [] => []
  | O, _ :: t => t
  | S j, y :: t => y :: drop_at j t
  end.

Definition set_tasks (n : vnode) (ts : list vtask) : vnode :=
  mkVnode (n_com n) (n_db n) (n_next n) ts (n_cache n) (n_out n) (n_fresh n) (n_checked n).
Definition set_cache (n : vnode) (a : N) (c : option centry) : vnode :=
  mkVnode (n_com n) (n_db n) (n_next n) (n_tasks n) (fun x => if x =? a then c else n_cache n x) (n_out n) (n_fresh n) (n_checked n).
Definition set_db (n : vnode) (d : ldb vinfo) : vnode :=
  mkVnode (n_com n) d (n_next n) (n_tasks n) (n_cache n) (n_out n) (n_fresh n) (n_checked n).
Definition add_out (n : vnode) (h : header) : vnode :=
  mkVnode (n_com n) (n_db n) (n_next n) (n_tasks n) (n_cache n) (n_out n ++ [h]) (n_fresh n) (n_checked n).
Definition add_fresh (n : vnode) (h : header) : vnode :=
  mkVnode (n_com n) (n_db n) (n_next n) (n_tasks n) (n_cache n) (n_out n) (n_fresh n ++ [h]) (n_checked n).
Definition add_checked (n : vnode) (x : committee * venv * header) : vnode :=
  mkVnode (n_com n) (n_db n) (n_next n) (n_tasks n) (n_cache n) (n_out n) (n_fresh n) (n_checked n ++ [x]).
Definition with_barrier (n : vnode) : vnode :=
  mkVnode (n_com n) (l_send (MBarrier (n_next n)) (n_db n)) (n_next n + 1) (n_tasks n) (n_cache n) (n_out n) (n_fresh n) (n_checked n).
(* 686-692: store the response in the cache and finish *)
Definition finish (i : nat) (h : header) (r : resp) (n : vnode) : vnode :=
  set_cache (set_tasks n (drop_at i (n_tasks n))) (h_author h)
            (Some (mkCentry (h_epoch h) (h_round h) (h_digest h) (Some r))).

(* 567-617: author/peer check, then the recast fast path. [read_ok] = the store read did not fail. *)
Definition ev_request (peer : N) (h : header) (ps : list cert) (read_ok : bool) (n : vnode) : vnode :=
  match cm_authority (n_com n) (h_author h) with
  | None => n
  | Some a =>
    if negb (peer =? a_id a) then n
    else
      match (if read_ok then l_get (n_db n) (vkey peer) else None) with
      | Some vi => if vi_digest vi =? h_digest h then set_tasks n (n_tasks n ++ [TMatch h])
                   else set_tasks n (n_tasks n ++ [TWant h ps])
      | None => set_tasks n (n_tasks n ++ [TWant h ps])
      end
  end.

(* 618-677: take the author's lock and consult (and take) the cached last response *)
Definition ev_lock (i : nat) (n : vnode) : vnode :=
  match nth_error (n_tasks n) i with
  | Some (TWant h ps) =>
    let a := h_author h in
    if existsb (fun t => match locked t with Some b => b =? a | None => false end) (n_tasks n) then n
    else
      let go := set_tasks (set_cache n a None) (replace i (TInner h ps) (n_tasks n)) in
      let done c := set_tasks (set_cache n a c) (drop_at i (n_tasks n)) in
      match n_cache n a with
      | None => go
      | Some ce =>
        if ce_digest ce =? h_digest h then
          match ce_resp ce with
          | None | Some RRecoverable => go
          | Some (RMissing m) =>
            match ps with
            | [] => done (Some ce)
            | _ => if N.of_nat (length ps) =? N.of_nat (length m) then
                     if forallb (fun p => memN (c_digest p) m) ps then go else done (Some ce)
                   else done (Some ce)
            end
          | Some (RVote h') => add_out (done None) h'
          | Some RError => done None
          end
        else if (h_epoch h <? ce_epoch ce) || ((ce_epoch ce =? h_epoch h) && (h_round h <=? ce_round ce)) then
          done (Some (mkCentry (ce_epoch ce) (ce_round ce) (ce_digest ce) None))
        else go
      end
  | _ => n
  end.

(* 712-914 *)
Definition ev_check (i : nat) (e : venv) (n : vnode) : vnode :=
  match nth_error (n_tasks n) i with
  | Some (TInner h ps) =>
    match vote_checks (n_com n) e h ps with
    | None => n
    | Some VPass => add_checked (set_tasks n (replace i (TChecked h) (n_tasks n))) (n_com n, e, h)
    | Some (VMissing l) => finish i h (RMissing l) n
    | Some (VErr rc) => finish i h (if rc then RRecoverable else RError) n
    end
  | _ => n
  end.

(* 932-936 *)
Definition ev_read (i : nat) (ok : bool) (n : vnode) : vnode :=
  match nth_error (n_tasks n) i with
  | Some (TChecked h) =>
    if ok then set_tasks n (replace i (TRead h (l_get (n_db n) (vkey (h_author h)))) (n_tasks n))
    else finish i h RError n
  | _ => n
  end.

(* 937-1014: decide, and write the vote store when this is a new vote *)
Definition ev_decide (i : nat) (n : vnode) : vnode :=
  match nth_error (n_tasks n) i with
  | Some (TRead h prev) =>
    let fresh := add_fresh (set_db (set_tasks n (replace i (TPersist h) (n_tasks n)))
                              (l_do (Ins (vkey (h_author h)) (vi_of h)) (n_db n))) h in
    match prev with
    | None => fresh
    | Some v =>
      if h_epoch h <? vi_epoch v then finish i h (if h_epoch h =? vi_epoch v + 1 then RRecoverable else RError) n
      else if h_epoch h =? vi_epoch v then
        if h_round h <? vi_round v then finish i h RError n
        else if h_round h =? vi_round v then
          if h_digest h =? vi_digest v then set_tasks n (replace i (TPersist h) (n_tasks n))
          else finish i h RError n
        else fresh
      else fresh
    end
  | _ => n
  end.

(* 602-605, 994-997, 1028-1031: request the durability barrier *)
Definition ev_persist (i : nat) (n : vnode) : vnode :=
  match nth_error (n_tasks n) i with
  | Some (TMatch h) => set_tasks (with_barrier n) (replace i (TFast h (n_next n)) (n_tasks n))
  | Some (TPersist h) => set_tasks (with_barrier n) (replace i (TWait h (n_next n)) (n_tasks n))
  | _ => n
  end.

Definition acked (n : vnode) (b : N) (r : bool) : bool :=
  existsb (fun x => (fst x =? b) && Bool.eqb (snd x) r) (l_acks (n_db n)).
(* the barrier is answered: 606-613, 998-1003, 1032-1039, 686-693. After a failed barrier the node also shuts down (crash event). *)
Definition ev_ack (i : nat) (n : vnode) : vnode :=
  match nth_error (n_tasks n) i with
  | Some (TFast h b) =>
    if acked n b true then add_out (set_tasks n (drop_at i (n_tasks n))) h
    else if acked n b false then set_tasks n (drop_at i (n_tasks n))
    else n
  | Some (TWait h b) =>
    if acked n b true then add_out (finish i h (RVote h) n) h
    else if acked n b false then finish i h RError n
    else n
  | _ => n
  end.

Inductive vev :=
| VRequest (peer : N) (h : header) (ps : list cert) (read_ok : bool)
| VLock (i : nat) | VCheck (i : nat) (e : venv) | VRead (i : nat) (ok : bool) | VDecide (i : nat)
| VPersist (i : nat) | VAck (i : nat)
| VCancel (i : nat)                  (* timeout (678-682) or the peer went away: the task is dropped *)
| VDb (ok : bool)                    (* one turn of the database thread *)
| VOther (o : op vinfo)              (* write to another table *)
| VOtherMsg (m : msg vinfo)          (* transactions of other components *)
| VOtherBarrier
| VCrash                             (* process crash and reopen, same epoch *)
| VRestart                           (* handler rebuilt without losing the database *)
| VNextEpoch (c : committee) (clear : bool). (* run_epoch.rs: epoch closed and recorded, tables cleared (or not), handler rebuilt *)

Definition other_op (o : op vinfo) : bool :=
  match o with Ins k _ | Del k => negb (fst k =? VOTES) | Clr t => negb (t =? VOTES) end.
Definition other_msg (m : msg vinfo) : bool :=
  match m with MOp _ | MBarrier _ => false | _ => true end.

Definition reset (n : vnode) (c : committee) (d : ldb vinfo) : vnode :=
  mkVnode c d (n_next n) [] (fun _ => None) (n_out n) (n_fresh n) (n_checked n).

Definition vstep (n : vnode) (e : vev) : vnode :=
  match e with
  | VRequest p h ps ok => ev_request p h ps ok n
  | VLock i => ev_lock i n
  | VCheck i e => ev_check i e n
  | VRead i ok => ev_read i ok n
  | VDecide i => ev_decide i n
  | VPersist i => ev_persist i n
  | VAck i => ev_ack i n
  | VCancel i => set_tasks n (drop_at i (n_tasks n))
  | VDb ok => set_db n (l_run ok (n_db n))
  | VOther o => if other_op o then set_db n (l_do o (n_db n)) else n
  | VOtherMsg m => if other_msg m then set_db n (l_send m (n_db n)) else n
  | VOtherBarrier => with_barrier n
  | VCrash => reset n (n_com n) (l_crash (n_db n))
  | VRestart => reset n (n_com n) (n_db n)
  | VNextEpoch c clear =>
    if cm_epoch (n_com n) <? cm_epoch c
    then reset n c (if clear then l_do (Clr VOTES) (n_db n) else n_db n) else n
  end.
Definition vrun (n : vnode) (evs : list vev) : vnode := fold_left vstep evs n.

(* a node that starts with an empty vote store *)
Definition vinit (c : committee) (disk : key -> option vinfo) : vnode :=
  mkVnode c (l_open true disk) 0 [] (fun _ => None) [] [] [].
