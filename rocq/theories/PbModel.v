(** Model of the proposer's main loop and its bookkeeping of batch digests.
    Source: crates/consensus/primary/src/proposer.rs (whole file), crates/types/src/committee.rs 247-260,
    crates/consensus/primary/src/consensus/state.rs 516-548 (what a report contains).
    Simplifications: a header is its round, epoch, payload and parents (the digest, timestamps, execution block and seed
    signature do not influence this file); parents are kept as certificates where the code keeps their digests; the guard
    record LastProposed is a single cell whose reads succeed (its durability and failing reads are C29's subject); the
    timers are events that may happen at any moment; metrics and log lines are left out. *)
From Verif Require Import Util.
Local Open Scope N_scope.

(** proposer.rs 69-75 [ProposerDigest]: digest and worker id *)
Definition pdig : Type := N * N.
(** what the proposer reads of a certificate: author, round, header digest, digests of the parents *)
Record bcert := mkBC { bc_origin : N; bc_round : N; bc_digest : N; bc_parents : list N }.
Record bhdr := mkBH { bh_round : N; bh_epoch : N; bh_payload : list pdig; bh_parents : list bcert }.

(** proposer.rs 300 `digests.iter().map(..).collect()` into an IndexMap: a repeated digest keeps its place and takes the
    later worker id *)
Fixpoint im_insert (d : pdig) (l : list pdig) : list pdig :=
  match l with
  | [] => [d]
  | x :: t => if fst x =? fst d then (fst x, snd d) :: t else x :: im_insert d t
  end.
Definition im_collect (l : list pdig) : list pdig := fold_left (fun acc d => im_insert d acc) l [].

(** BTreeMap<Round, Header> (proposer.rs 121-123): ascending association list (Util.bmap) *)
Definition tmap : Type := bmap bhdr.
Definition tm_insert : N -> bhdr -> tmap -> tmap := bm_insert.
Definition tm_remove (r : N) (m : tmap) : tmap := filter (fun x => negb (fst x =? r)) m.
Definition tm_get : N -> tmap -> option bhdr := bm_lookup.
(** proposer.rs 643-647: walk from the oldest round, break after the maximum *)
Fixpoint tm_upto (m : N) (t : tmap) : tmap :=
  match t with
  | [] => []
  | x :: t' => if m <? fst x then [] else x :: tm_upto m t'
  end.

(** parameters fixed for the epoch *)
Record bcfg := mkCfg {
  c_me : N;                 (* authority_id *)
  c_epoch : N;              (* committee.epoch() *)
  c_size : N;               (* number of authorities, each with voting power 1 *)
  c_member : N -> bool;     (* membership, for voting_power_by_id *)
  c_threshold : nat;        (* header_num_of_batches_threshold *)
  c_max : nat;              (* max_header_num_of_batches *)
  c_genesis : list bcert    (* Certificate::genesis(committee) *)
}.
(** committee.rs 247-252, 254-260 *)
Definition quorum (c : bcfg) : N := 2 * c_size c / 3 + 1.
Definition validity (c : bcfg) : N := N.max 1 ((c_size c + 2) / 3).
Definition power (c : bcfg) (a : N) : N := if c_member c a then 1 else 0.

(** the proposer, the watch it publishes, its record in the store, and the locals of [run] (848-850) *)
Record bst := mkB {
  b_round : N;
  b_prim : N;                     (* primary_round watch *)
  b_parents : list bcert;         (* last_parents *)
  b_leader : option bcert;        (* last_leader *)
  b_queue : list pdig;            (* digests *)
  b_tracked : tmap;               (* proposed_headers *)
  b_adv : bool;                   (* advance_round *)
  b_pend : option (bhdr * bool);  (* pending_header: the header being stored and sent; true once its record is written *)
  b_maxt : bool;
  b_mint : bool;
  b_dead : bool;                  (* run returned an error *)
  b_store : option bhdr;          (* LastProposed *)
  b_sched : N -> N;               (* leader_schedule.leader(round).id() *)
  (* history since the proposer started, for the specification only *)
  b_acked : list pdig;            (* digests acknowledged to the workers, oldest first *)
  b_created : list bhdr;          (* new headers built, oldest first *)
  b_sent : list bhdr;             (* headers handed to the certifier, oldest first *)
  b_done : list bhdr;             (* tracked headers reported as committed, oldest first *)
  b_requeued : list pdig          (* digests put back in the queue, oldest first *)
}.

Definition set_q (s : bst) (q : list pdig) (a : list pdig) : bst :=
  mkB (b_round s) (b_prim s) (b_parents s) (b_leader s) q (b_tracked s) (b_adv s) (b_pend s) (b_maxt s) (b_mint s)
      (b_dead s) (b_store s) (b_sched s) a (b_created s) (b_sent s) (b_done s) (b_requeued s).
Definition set_parents (s : bst) (r pr : N) (ps : list bcert) : bst :=
  mkB r pr ps (b_leader s) (b_queue s) (b_tracked s) (b_adv s) (b_pend s) (b_maxt s) (b_mint s)
      (b_dead s) (b_store s) (b_sched s) (b_acked s) (b_created s) (b_sent s) (b_done s) (b_requeued s).
Definition set_adv (s : bst) (l : option bcert) (a : bool) : bst :=
  mkB (b_round s) (b_prim s) (b_parents s) l (b_queue s) (b_tracked s) a (b_pend s) (b_maxt s) (b_mint s)
      (b_dead s) (b_store s) (b_sched s) (b_acked s) (b_created s) (b_sent s) (b_done s) (b_requeued s).
Definition set_tracked (s : bst) (q : list pdig) (t : tmap) (dn : list bhdr) (rq : list pdig) : bst :=
  mkB (b_round s) (b_prim s) (b_parents s) (b_leader s) q t (b_adv s) (b_pend s) (b_maxt s) (b_mint s)
      (b_dead s) (b_store s) (b_sched s) (b_acked s) (b_created s) (b_sent s) dn rq.
Definition set_timers (s : bst) (mx mn : bool) : bst :=
  mkB (b_round s) (b_prim s) (b_parents s) (b_leader s) (b_queue s) (b_tracked s) (b_adv s) (b_pend s) mx mn
      (b_dead s) (b_store s) (b_sched s) (b_acked s) (b_created s) (b_sent s) (b_done s) (b_requeued s).

(** proposer.rs 462-470 [update_leader] *)
Definition find_leader (s : bst) : option bcert :=
  find (fun c => bc_origin c =? b_sched s (b_round s)) (b_parents s).
(** proposer.rs 482-511 [enough_votes] *)
Definition votes_for (c : bcfg) (d : N) (ps : list bcert) : N :=
  fold_left (fun acc x => if existsb (N.eqb d) (bc_parents x) then acc + power c (bc_origin x) else acc) ps 0.
Definition votes_against (c : bcfg) (d : N) (ps : list bcert) : N :=
  fold_left (fun acc x => if existsb (N.eqb d) (bc_parents x) then acc else acc + power c (bc_origin x)) ps 0.
Definition enough_votes (c : bcfg) (s : bst) : bool :=
  if b_sched s (b_round s + 1) =? c_me c then true
  else match b_leader s with
       | None => true
       | Some l => (validity c <=? votes_for c (bc_digest l) (b_parents s))
                   || (quorum c <=? votes_against c (bc_digest l) (b_parents s))
       end.
(** proposer.rs 520-525 [ready], with the effect of update_leader *)
Definition ready (c : bcfg) (s : bst) : bst :=
  if N.even (b_round s)
  then let l := find_leader s in set_adv s l (match l with Some _ => true | None => false end)
  else set_adv s (b_leader s) (enough_votes c s).

(** proposer.rs 530-603 [process_parents]; the intervals are events of their own *)
Definition process_parents (c : bcfg) (cs : list bcert) (q : N) (s : bst) : bst :=
  let s := match q ?= b_round s with
           | Gt => set_parents s q q cs
           | Lt => s
           | Eq => set_parents s (b_round s) (b_prim s) (b_parents s ++ cs)
           end in
  ready c s.

(** proposer.rs 616-680 [process_committed_headers]; the commit round is only logged *)
Definition process_committed (rs : list N) (s : bst) : bst :=
  let mx := fold_left N.max rs 0 in
  let '(tr, dn) := fold_left (fun acc r =>
                     let '(t, dn) := acc in
                     (tm_remove r t, match tm_get r t with Some h => dn ++ [h] | None => dn end))
                   rs (b_tracked s, b_done s) in
  let old := tm_upto mx tr in
  match old with
  | [] => set_tracked s (b_queue s) tr dn (b_requeued s)
  | _ => let ds := flat_map (fun x => bh_payload (snd x)) old in
         set_tracked s (ds ++ b_queue s) (fold_left (fun t x => tm_remove (fst x) t) old tr) dn (b_requeued s ++ ds)
  end.

(** proposer.rs 689-760 [propose_next_header] with the clearing of the timers at 958-960 *)
Definition propose_next (c : bcfg) (s : bst) : bst :=
  let r := N.max (b_round s + 1) (b_prim s + 1) in
  match b_store s with
  | Some h =>
      if (bh_round h =? r) && (bh_epoch h =? c_epoch c)
      then mkB r r [] (b_leader s) (b_queue s) (b_tracked s) (b_adv s) (Some (h, false)) false false
               (b_dead s) (b_store s) (b_sched s) (b_acked s) (b_created s) (b_sent s) (b_done s) (b_requeued s)
      else let k := Nat.min (length (b_queue s)) (c_max c) in
           let nh := mkBH r (c_epoch c) (im_collect (firstn k (b_queue s))) (b_parents s) in
           mkB r r [] (b_leader s) (skipn k (b_queue s)) (b_tracked s) (b_adv s) (Some (nh, false)) false false
               (b_dead s) (b_store s) (b_sched s) (b_acked s) (b_created s ++ [nh]) (b_sent s) (b_done s) (b_requeued s)
  | None =>
      let k := Nat.min (length (b_queue s)) (c_max c) in
      let nh := mkBH r (c_epoch c) (im_collect (firstn k (b_queue s))) (b_parents s) in
      mkB r r [] (b_leader s) (skipn k (b_queue s)) (b_tracked s) (b_adv s) (Some (nh, false)) false false
          (b_dead s) (b_store s) (b_sched s) (b_acked s) (b_created s ++ [nh]) (b_sent s) (b_done s) (b_requeued s)
  end.

(** proposer.rs 909-985: the end of the loop body *)
Definition should_create (c : bcfg) (s : bst) : bool :=
  match b_parents s with [] => false | _ => true end
  && (b_maxt s || (b_adv s && ((c_threshold c <=? length (b_queue s))%nat || b_mint s))).
Definition loop_end (c : bcfg) (s : bst) : bst :=
  match b_pend s with
  | Some _ => s
  | None =>
      if should_create c s then propose_next c s
      else if b_maxt s then
        match b_store s with
        | Some h => mkB (b_round s) (b_prim s) (b_parents s) (b_leader s) (b_queue s) (b_tracked s) (b_adv s)
                        (Some (h, false)) false false (b_dead s) (b_store s) (b_sched s) (b_acked s) (b_created s)
                        (b_sent s) (b_done s) (b_requeued s)
        | None => s
        end
      else s
  end.

(** proposer.rs 380-395 [store_and_send_header]: which record is in the store afterwards *)
Definition supersedes (h : bhdr) (st : option bhdr) : bool :=
  match st with None => true | Some l => negb (bh_epoch l =? bh_epoch h) || (bh_round l <=? bh_round h) end.
Definition write_record (s : bst) : bst :=
  match b_pend s with
  | Some (h, false) =>
      mkB (b_round s) (b_prim s) (b_parents s) (b_leader s) (b_queue s) (b_tracked s) (b_adv s) (Some (h, true))
          (b_maxt s) (b_mint s) (b_dead s) (if supersedes h (b_store s) then Some h else b_store s) (b_sched s)
          (b_acked s) (b_created s) (b_sent s) (b_done s) (b_requeued s)
  | _ => s
  end.
(** proposer.rs 415 and 767-785 [handle_proposal_result] with Ok: sent to the certifier, then registered *)
Definition task_done (s : bst) : bst :=
  match b_pend s with
  | Some (h, true) =>
      mkB (b_round s) (b_prim s) (b_parents s) (b_leader s) (b_queue s) (tm_insert (bh_round h) h (b_tracked s)) false
          None (b_maxt s) (b_mint s) (b_dead s) (b_store s) (b_sched s) (b_acked s) (b_created s) (b_sent s ++ [h])
          (b_done s) (b_requeued s)
  | _ => s
  end.
Definition fail (s : bst) : bst :=
  mkB (b_round s) (b_prim s) (b_parents s) (b_leader s) (b_queue s) (b_tracked s) (b_adv s) None (b_maxt s) (b_mint s)
      true (b_store s) (b_sched s) (b_acked s) (b_created s) (b_sent s) (b_done s) (b_requeued s).

(** proposer.rs 175-240 [new] *)
Definition b_new (c : bcfg) (prim : N) (st : option bhdr) (sch : N -> N) : bst :=
  let r := match st with
           | Some h => if (bh_epoch h =? c_epoch c) && (prim <? bh_round h) then bh_round h - 1 else 0
           | None => 0
           end in
  mkB r prim (c_genesis c) None [] [] true None false false false st sch [] [] [] [] [].

Inductive bev :=
| BDigest (d w : N)                     (* 868-876 *)
| BParents (cs : list bcert) (q : N)    (* 879-882 *)
| BReport (cr : N) (rs : list N)        (* 883-886 *)
| BWrite                                (* the spawned task writes its record *)
| BDone                                 (* 887-891, the task has sent its header *)
| BFail                                 (* 887-891, the task failed: run returns *)
| BMax | BMin                           (* 893-898 *)
| BPrim (v : N)                         (* another writer of the primary_round watch: executor/src/subscriber.rs 172 *)
| BSched (f : N -> N).                  (* the leader schedule changes: consensus/leader_schedule.rs *)

Definition bstep (c : bcfg) (s : bst) (e : bev) : bst :=
  if b_dead s then s else
  match e with
  | BDigest d w => loop_end c (set_q s (b_queue s ++ [(d, w)]) (b_acked s ++ [(d, w)]))
  | BParents cs q => loop_end c (process_parents c cs q s)
  | BReport _ rs => loop_end c (process_committed rs s)
  | BWrite => write_record s
  | BDone => match b_pend s with Some (_, true) => loop_end c (task_done s) | _ => s end
  | BFail => match b_pend s with Some _ => fail s | None => s end
  | BMax => loop_end c (set_timers s true (b_mint s))
  | BMin => loop_end c (set_timers s (b_maxt s) true)
  | BPrim v => set_parents s (b_round s) v (b_parents s)
  | BSched f => mkB (b_round s) (b_prim s) (b_parents s) (b_leader s) (b_queue s) (b_tracked s) (b_adv s) (b_pend s)
                    (b_maxt s) (b_mint s) (b_dead s) (b_store s) f (b_acked s) (b_created s) (b_sent s) (b_done s)
                    (b_requeued s)
  end.
Definition brun (c : bcfg) (s : bst) (evs : list bev) : bst := fold_left (bstep c) evs s.
