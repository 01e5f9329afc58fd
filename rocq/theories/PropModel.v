(** Model of one node's proposer and certifier over the epoch database, with crashes and restarts.
    Sources: crates/consensus/primary/src/{proposer.rs, certifier.rs}, crates/storage/src/stores/proposer_store.rs,
    crates/storage/src/layered_db.rs (LdbModel). Payload, parents and timestamps are arbitrary contents of the header
    built by an event; timers, `advance_round` and the delay conditions are left out (a proposal may happen whenever the code's
    main loop is at its end, which is more than the code does). *)
From Verif Require Import Util Types LdbModel VoteModel.
Local Open Scope N_scope.

(** the two tables of the epoch database used here; proposer_store.rs 7 [LAST_PROPOSAL_KEY] = 0 *)
Inductive pval := VH (h : header) | VC (c : cert).
Definition LASTP : N := 1.
Definition PROPC : N := 2.
Definition KP : key := (LASTP, 0).
Definition KC (d : N) : key := (PROPC, d).

(** the spawned header task: proposer.rs 246-420 (propose_header, repropose_header, store_and_send_header) *)
Inductive ptask :=
| PIdle                       (* no pending header *)
| PStart (h : header)         (* header built or read back; store_and_send_header not started *)
| PPersist (h : header)       (* 391-394 record written *)
| PWait (h : header) (b : N)  (* 408-412 waiting for the barrier *)
| PSend (h : header)          (* about to send to the certifier, 415 *)
| PDead.                      (* a fatal error: the proposer task has returned *)

(** one spawned proposal of the certifier: certifier.rs 408-530 *)
Inductive ctask :=
| CWant (h : header)                    (* 415 waiting for the proposal lock *)
| CVoting (h : header)                  (* 434-440 lock held, collecting votes *)
| CPersist (c : cert)                   (* 443-462 record written, lock released *)
| CWait (c : cert) (b : N).             (* 481-488 waiting for the barrier *)
Definition holds_lock (t : ctask) : bool := match t with CVoting _ => true | _ => false end.

Record pnode := mkP {
  p_me : N;
  p_epoch : N;
  p_db : ldb pval;
  p_next : N;                 (* fresh barrier identifiers *)
  p_round : N;                (* Proposer::round *)
  p_prim : N;                 (* primary_round watch *)
  p_task : ptask;
  p_chan : list header;       (* headers sent, not yet received by the certifier *)
  p_certs : list ctask;
  p_sent : list header;       (* history: headers handed to the certifier, oldest first *)
  p_ext : list cert;          (* history: certificates externalised, oldest first *)
  p_rel : list cert           (* history: those released by the task that assembled them *)
}.

(** proposer_store.rs 24-26 *)
Definition last_proposed (d : ldb pval) : option header :=
  match l_get d KP with Some (VH h) => Some h | _ => None end.
(** certifier.rs 418-420 *)
Definition stored_cert (d : ldb pval) (dig : N) : option cert :=
  match l_get d (KC dig) with Some (VC c) => Some c | _ => None end.

Definition set_task (n : pnode) (t : ptask) : pnode :=
  mkP (p_me n) (p_epoch n) (p_db n) (p_next n) (p_round n) (p_prim n) t (p_chan n) (p_certs n) (p_sent n) (p_ext n) (p_rel n).
Definition set_rounds (n : pnode) (r pr : N) : pnode :=
  mkP (p_me n) (p_epoch n) (p_db n) (p_next n) r pr (p_task n) (p_chan n) (p_certs n) (p_sent n) (p_ext n) (p_rel n).
Definition set_pdb (n : pnode) (d : ldb pval) : pnode :=
  mkP (p_me n) (p_epoch n) d (p_next n) (p_round n) (p_prim n) (p_task n) (p_chan n) (p_certs n) (p_sent n) (p_ext n) (p_rel n).
Definition p_barrier (n : pnode) : pnode :=
  mkP (p_me n) (p_epoch n) (l_send (MBarrier (p_next n)) (p_db n)) (p_next n + 1) (p_round n) (p_prim n) (p_task n)
      (p_chan n) (p_certs n) (p_sent n) (p_ext n) (p_rel n).
Definition set_certs (n : pnode) (ts : list ctask) : pnode :=
  mkP (p_me n) (p_epoch n) (p_db n) (p_next n) (p_round n) (p_prim n) (p_task n) (p_chan n) ts (p_sent n) (p_ext n) (p_rel n).
Definition add_sent (n : pnode) (h : header) : pnode :=
  mkP (p_me n) (p_epoch n) (p_db n) (p_next n) (p_round n) (p_prim n) PIdle (p_chan n ++ [h]) (p_certs n)
      (p_sent n ++ [h]) (p_ext n) (p_rel n).
Definition add_ext (n : pnode) (c : cert) (own : bool) : pnode :=
  mkP (p_me n) (p_epoch n) (p_db n) (p_next n) (p_round n) (p_prim n) (p_task n) (p_chan n) (p_certs n)
      (p_sent n) (p_ext n ++ [c]) (if own then p_rel n ++ [c] else p_rel n).
Definition packed (n : pnode) (b : N) (r : bool) : bool :=
  existsb (fun x => (fst x =? b) && Bool.eqb (snd x) r) (l_acks (p_db n)).

(** proposer.rs 526-603 [process_parents]: only the round moves here *)
Definition ev_parents (q : N) (n : pnode) : pnode :=
  if p_round n <? q then set_rounds n q q else n.

(** proposer.rs 689-760 [propose_next_header]; [b] supplies the contents of a new header *)
Definition ev_propose (b : header) (read_ok : bool) (n : pnode) : pnode :=
  match p_task n with
  | PIdle =>
      let r := N.max (p_round n + 1) (p_prim n + 1) in
      let n := set_rounds n r r in
      if negb read_ok then set_task n PDead
      else match last_proposed (p_db n) with
           | Some h => if (h_round h =? r) && (h_epoch h =? p_epoch n) then set_task n (PStart h)
                       else set_task n (PStart (mkHeader (p_me n) r (p_epoch n) (h_created b) (h_payload b) (h_parents b)
                                                         (h_exec_num b) (h_exec_hash b) (h_seed b) (h_digest b)))
           | None => set_task n (PStart (mkHeader (p_me n) r (p_epoch n) (h_created b) (h_payload b) (h_parents b)
                                                  (h_exec_num b) (h_exec_hash b) (h_seed b) (h_digest b)))
           end
  | _ => n
  end.
(** proposer.rs 962-984: re-propose after the max delay (whatever epoch the record has) *)
Definition ev_repropose (n : pnode) : pnode :=
  match p_task n with
  | PIdle => match last_proposed (p_db n) with Some h => set_task n (PStart h) | None => n end
  | _ => n
  end.
(** proposer.rs 385-394 *)
Definition ev_store (read_ok write_ok : bool) (n : pnode) : pnode :=
  match p_task n with
  | PStart h =>
      if negb read_ok then set_task n PDead
      else let supersedes := match last_proposed (p_db n) with
                             | None => true
                             | Some l => negb (h_epoch l =? h_epoch h) || (h_round l <=? h_round h)
                             end in
           if supersedes
           then if write_ok then set_task (set_pdb n (l_do (Ins KP (VH h)) (p_db n))) (PPersist h) else set_task n PDead
           else set_task n (PSend h)
  | _ => n
  end.
(** proposer.rs 408-415 *)
Definition ev_ppersist (n : pnode) : pnode :=
  match p_task n with PPersist h => set_task (p_barrier n) (PWait h (p_next n)) | _ => n end.
Definition ev_pack (n : pnode) : pnode :=
  match p_task n with
  | PWait h b => if packed n b true then set_task n (PSend h)
                 else if packed n b false then set_task n PDead else n
  | _ => n
  end.
Definition ev_send (n : pnode) : pnode :=
  match p_task n with PSend h => add_sent n h | _ => n end.

(** certifier.rs 541-554: the main loop receives a header and spawns its task (cancelling the others: event CCancel) *)
Definition ev_recv (n : pnode) : pnode :=
  match p_chan n with
  | [] => n
  | h :: t => mkP (p_me n) (p_epoch n) (p_db n) (p_next n) (p_round n) (p_prim n) (p_task n) t (p_certs n ++ [CWant h])
                  (p_sent n) (p_ext n) (p_rel n)
  end.
(** certifier.rs 412-432: take the lock, look for a stored certificate; a stored one is published again.
    262-276: a header of another epoch is refused. *)
Definition ev_clock (i : nat) (n : pnode) : pnode :=
  match nth_error (p_certs n) i with
  | Some (CWant h) =>
      if existsb holds_lock (p_certs n) then n
      else match stored_cert (p_db n) (h_digest h) with
           | Some c => add_ext (set_certs n (drop_at i (p_certs n))) c false
           | None => if h_epoch h =? p_epoch n then set_certs n (replace i (CVoting h) (p_certs n))
                     else set_certs n (drop_at i (p_certs n))
           end
  | _ => n
  end.
(** certifier.rs 440-462: votes made certificate (st, signers); the record is written and the lock released *)
Definition ev_cert (i : nat) (st : sigstate) (sg : list N) (write_ok : bool) (n : pnode) : pnode :=
  match nth_error (p_certs n) i with
  | Some (CVoting h) =>
      if write_ok
      then set_certs (set_pdb n (l_do (Ins (KC (h_digest h)) (VC (mkCert h st sg))) (p_db n)))
                     (replace i (CPersist (mkCert h st sg)) (p_certs n))
      else set_certs n (drop_at i (p_certs n))
  | _ => n
  end.
Definition ev_cpersist (i : nat) (n : pnode) : pnode :=
  match nth_error (p_certs n) i with
  | Some (CPersist c) => set_certs (p_barrier n) (replace i (CWait c (p_next n)) (p_certs n))
  | _ => n
  end.
(** certifier.rs 488-510: released: accepted locally and published *)
Definition ev_cack (i : nat) (n : pnode) : pnode :=
  match nth_error (p_certs n) i with
  | Some (CWait c b) => if packed n b true then add_ext (set_certs n (drop_at i (p_certs n))) c true
                        else if packed n b false then set_certs n (drop_at i (p_certs n)) else n
  | _ => n
  end.

(** proposer.rs 205-216 [new]: the starting round *)
Definition recovered_round (d : ldb pval) (epoch prim : N) (read_ok : bool) : N :=
  match (if read_ok then last_proposed d else None) with
  | Some h => if (h_epoch h =? epoch) && (prim <? h_round h) then h_round h - 1 else 0
  | None => 0
  end.
(** all tasks of the epoch are dropped; the proposer and the certifier are built again. [prim] is what
    prime_consensus put in the primary_round watch (state-sync/src/lib.rs 34-60). *)
Definition rebuild (n : pnode) (e : N) (d : ldb pval) (prim : N) (read_ok : bool) : pnode :=
  mkP (p_me n) e d (p_next n) (recovered_round d e prim read_ok) prim PIdle [] [] (p_sent n) (p_ext n) (p_rel n).

Inductive pev :=
| PParents (q : N) | PPropose (b : header) (read_ok : bool) | PRepropose
| PStore (read_ok write_ok : bool) | PPersistReq | PAck | PSendHdr
| CRecv | CLock (i : nat) | CCert (i : nat) (st : sigstate) (sg : list N) (write_ok : bool)
| CPersistReq (i : nat) | CAck (i : nat)
| CCancel (i : nat)                                  (* cancelled, failed or shut down *)
| PDb (ok : bool)                                    (* one turn of the database thread *)
| POther (o : op pval)                               (* writes to other tables *)
| POtherMsg (m : msg pval)                           (* transactions of other components *)
| POtherBarrier
| PCrash (prim : N) (read_ok : bool)                 (* crash, reopen, same epoch *)
| PRestart (prim : N) (read_ok : bool)               (* tasks rebuilt without losing the database *)
| PNextEpoch (e prim : N) (clear1 clear2 read_ok : bool). (* close_epoch.rs 750-762 clears the tables, or not *)

Definition other_pop (o : op pval) : bool :=
  match o with Ins k _ | Del k => negb (fst k =? LASTP) && negb (fst k =? PROPC)
             | Clr t => negb (t =? LASTP) && negb (t =? PROPC) end.
Definition other_pmsg (m : msg pval) : bool := match m with MOp _ | MBarrier _ => false | _ => true end.

Definition pstep (n : pnode) (e : pev) : pnode :=
  match e with
  | PParents q => ev_parents q n
  | PPropose b ok => ev_propose b ok n
  | PRepropose => ev_repropose n
  | PStore r w => ev_store r w n
  | PPersistReq => ev_ppersist n
  | PAck => ev_pack n
  | PSendHdr => ev_send n
  | CRecv => ev_recv n
  | CLock i => ev_clock i n
  | CCert i st sg w => ev_cert i st sg w n
  | CPersistReq i => ev_cpersist i n
  | CAck i => ev_cack i n
  | CCancel i => set_certs n (drop_at i (p_certs n))
  | PDb ok => set_pdb n (l_run ok (p_db n))
  | POther o => if other_pop o then set_pdb n (l_do o (p_db n)) else n
  | POtherMsg m => if other_pmsg m then set_pdb n (l_send m (p_db n)) else n
  | POtherBarrier => p_barrier n
  | PCrash prim ok => rebuild n (p_epoch n) (l_crash (p_db n)) prim ok
  | PRestart prim ok => rebuild n (p_epoch n) (p_db n) prim ok
  | PNextEpoch e prim c1 c2 ok =>
      if p_epoch n <? e
      then let d := if c1 then l_do (Clr LASTP) (p_db n) else p_db n in
           let d := if c2 then l_do (Clr PROPC) d else d in
           rebuild n e d prim ok
      else n
  end.
Definition prun (n : pnode) (evs : list pev) : pnode := fold_left pstep evs n.
(** a node whose two tables start empty *)
Definition pinit (me e prim : N) (disk : key -> option pval) : pnode :=
  mkP me e (l_open true disk) 0 0 prim PIdle [] [] [] [] [].
