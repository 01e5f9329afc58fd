(** Model of the Bullshark ordering engine and its state.
    Sources: crates/consensus/primary/src/consensus/{bullshark.rs, state.rs, utils.rs},
    crates/types/src/primary/{output.rs, seed_chain.rs}, crates/storage/src/consensus_pack.rs. *)
From Verif Require Import Util Types CommitteeModel CertModel LeaderModel GasModel.
Local Open Scope N_scope.

(** types/src/primary/output.rs 303-331 [CommittedSubDagInner] (headers, last one is the leader). *)
Record subdag := mkSubDag {
  sd_headers : list header;
  sd_scores : scores;
  sd_ts : N;
  sd_rand : N
}.

(** the dummy a [last().expect(..)] would panic on; a committed sub-dag is never empty
    (C10), so the default is never read *)
Definition no_header : header := mkHeader 0 0 0 0 [] [] 0 0 0 0.
(** output.rs 472-475 [leader]. *)
Definition sd_leader (d : subdag) : header := last (sd_headers d) no_header.
(** output.rs 478-480 [leader_round]. *)
Definition sd_round (d : subdag) : N := h_round (sd_leader d).
(** output.rs 488-496 [commit_timestamp]. *)
Definition commit_timestamp (d : subdag) : N :=
  if sd_ts d =? 0 then h_created (sd_leader d) else sd_ts d.

(** state.rs 27 [Dag]: BTreeMap<Round, HashMap<Authority, (digest, certificate)>>, flattened to the
    list of its certificates.  (round, origin) is the key.  A round table is never left empty
    (entries are only added, or whole rounds dropped), so "round absent" and "no certificate of
    that round" coincide.  The order of the list stands for the arbitrary HashMap order. *)
Definition dag := list cert.
Definition round_table (d : dag) (r : N) : list cert := filter (fun x => c_round x =? r) d.
Definition find_cert (d : dag) (r a : N) : option cert :=
  find (fun x => (c_round x =? r) && (c_origin x =? a)) d.
Definition same_slot (x y : cert) : bool := (c_round x =? c_round y) && (c_origin x =? c_origin y).
(** the map insertion of state.rs 178-183 *)
Definition dag_insert (x : cert) (d : dag) : dag := x :: filter (fun y => negb (same_slot x y)) d.

(** state.rs 31-56 [ConsensusState] plus the swap table of the schedule Bullshark owns
    (bullshark.rs 34, leader_schedule.rs 246-251). *)
Record bstate := mkB {
  b_committed : N;                 (* last_round.committed_round *)
  b_gc : N;                        (* last_round.gc_round *)
  b_last : bmap N;                 (* last_committed *)
  b_sub : option subdag;           (* last_committed_sub_dag *)
  b_dag : dag;
  b_seed : N;                      (* seed_chain *)
  b_table : swap_table
}.

(** the typed errors, plus the panics and the out-of-fuel outcome of this model *)
Inductive berr :=
| EMissingParent | EMissingParentRound | EEquivocation       (* ConsensusError *)
| EMissingChildRound | EOddLeader | ERepCount                (* ConsensusInvariant *)
| EPanic                                                     (* assert / expect *)
| EFuel.                                                     (* a loop of the code would run on *)

Inductive outcome := OCommit | OBelowCommitRound | ONoLeaderOdd | OLeaderBelow | OLeaderNotFound
                   | ONotEnoughSupport | OScheduleChanged.

(** utils.rs 58-60 [gc_round]. *)
Definition gc_round (commit_round gc_depth : N) : N := commit_round - gc_depth.

(** state.rs 224-251 [check_parents]. *)
Definition check_parents (x : cert) (d : dag) (gc : N) : option berr :=
  if c_round x <=? gc + 1 then None
  else match round_table d (c_round x - 1) with
       | [] => Some EMissingParentRound
       | t => if forallb (fun p => memN p (map c_digest t)) (c_parents x) then None
              else Some EMissingParent
       end.

(** state.rs 155-195 [try_insert_in_dag]: new dag and the returned boolean. *)
Definition wm (last : bmap N) (a : N) : N := match bm_lookup a last with Some r => r | None => 0 end.
Definition try_insert_in_dag (d : dag) (last : bmap N) (gc : N) (x : cert) (check : bool)
  : result (dag * bool) berr :=
  if c_round x <=? gc then Ok (d, false)
  else match (if check then check_parents x d gc else None) with
       | Some e => Err e
       | None =>
           match find_cert d (c_round x) (c_origin x) with
           | Some y => if c_digest y =? c_digest x
                       then Ok (dag_insert x d, wm last (c_origin x) <? c_round x)
                       else Err EEquivocation
           | None => Ok (dag_insert x d, wm last (c_origin x) <? c_round x)
           end
       end.

(** bullshark.rs 330-346 [linked]; the range [prev.round .. leader.round] reversed. *)
Fixpoint down (n : nat) (lo : N) : list N :=
  match n with O => [] | S n => (lo + N.of_nat n) :: down n lo end.
Fixpoint linked_loop (d : dag) (rs : list N) (ps : list cert) : list cert :=
  match rs with
  | [] => ps
  | r :: rs => linked_loop d rs
      (filter (fun x => existsb (fun p => memN (c_digest x) (c_parents p)) ps) (round_table d r))
  end.
(** certificate.rs 495-503 [PartialEq]. *)
Definition cert_eqb (x y : cert) : bool :=
  (c_digest x =? c_digest y) && (c_round x =? c_round y) && (c_epoch x =? c_epoch y)
  && (c_origin x =? c_origin y).
Definition linked (d : dag) (ldr prev : cert) : bool :=
  existsb (cert_eqb prev)
    (linked_loop d (down (N.to_nat (c_round ldr - c_round prev)) (c_round prev)) [ldr]).

(** bullshark.rs 305: [(lo ..= hi).rev().step_by(2)] *)
Fixpoint steps (n : nat) (hi : N) : list N :=
  match n with O => [] | S n => hi :: steps n (hi - 2) end.
Definition step_rounds (lo hi : N) : list N :=
  if hi <? lo then [] else steps (S (N.to_nat ((hi - lo) / 2))) hi.

(** utils.rs 15-56 [order_dag].  The stack is a list with its top first; [stop] is
    [gc_round + 1].  Parents not found are skipped (the code logs an error).  [None] = out of
    fuel. *)
Definition find_parent (d : dag) (r p : N) : option cert :=
  find (fun x => (c_round x =? r) && (c_digest x =? p)) d.
Definition push_parent (d : dag) (last : bmap N) (r : N) (st : list cert * list N) (p : N)
  : list cert * list N :=
  match find_parent d r p with
  | None => st
  | Some y =>
      if memN (c_digest y) (snd st)
         || (match bm_lookup (c_origin y) last with Some w => c_round y <=? w | None => false end)
      then st
      else (y :: fst st, c_digest y :: snd st)
  end.
Fixpoint dfs (d : dag) (last : bmap N) (stop : N) (fuel : nat) (stack : list cert) (seen : list N)
  : option (list cert) :=
  match stack with
  | [] => Some []
  | x :: stack =>
      match fuel with
      | O => None
      | S fuel =>
          let '(stack', seen') :=
            if c_round x =? stop then (stack, seen)
            else fold_left (push_parent d last (c_round x - 1)) (c_parents x) (stack, seen) in
          match dfs d last stop fuel stack' seen' with
          | Some l => Some (x :: l)
          | None => None
          end
      end
  end.
(** [sort_by_key] (stable) on the round *)
Fixpoint ins_round (x : cert) (l : list cert) : list cert :=
  match l with
  | [] => [x]
  | y :: t => if c_round x <=? c_round y then x :: l else y :: ins_round x t
  end.
Definition sort_by_round (l : list cert) : list cert := fold_right ins_round [] l.
Definition order_dag (gc_depth : N) (s : bstate) (ldr : cert) : result (list cert) berr :=
  if c_round ldr =? 0 then Err EPanic
  else match dfs (b_dag s) (b_last s) (gc_round (c_round ldr) gc_depth + 1)
                 (S (length (b_dag s))) [ldr] [] with
       | Some l => Ok (sort_by_round l)
       | None => Err EFuel
       end.

(** state.rs 198-221 [update] (the [ConsensusRound::update] of 273-278 inlined). *)
Definition update (gc_depth : N) (s : bstate) (x : cert) : bstate :=
  let committed := N.max (b_committed s) (c_round x) in
  let gc := gc_round committed gc_depth in
  mkB committed gc
      (bm_insert (c_origin x)
         (match bm_lookup (c_origin x) (b_last s) with Some r => N.max r (c_round x) | None => c_round x end)
         (b_last s))
      (b_sub s) (filter (fun y => gc <? c_round y) (b_dag s)) (b_seed s) (b_table s).

Section Bull.
(** external functions: integer square root, seeded choice, keccak folds of the seed chain, the
    legacy keccak of an aggregate signature, the epoch root, the fork gate *)
Variable fsqrt : N -> N.
Variable choose : list authority -> N -> option authority.
Variable fold_seed : N -> N -> N -> N.      (* seed_chain.rs 115-125 *)
Variable legacy_rand : N -> N.              (* output.rs 409-423 *)
Variable epoch_root : N -> N.               (* seed_chain.rs 85-88 *)
Variable seed_active : N -> bool.           (* forks.rs 235 *)
Variable cm : committee.
Variables gc_depth num_sub_dags pct : N.

(** bullshark.rs 58-112 [resolve_reputation_score]. *)
Definition add_supporters (prev : subdag) (seq : list cert) (sc : scores) : scores :=
  fold_left (fun sc x =>
               if (c_round x =? sd_round prev + 1) && memN (h_digest (sd_leader prev)) (c_parents x)
               then add_score sc (c_origin x) 1 else sc) seq sc.
Definition resolve_scores (prev : option subdag) (seq : list cert) (index : N) : result scores berr :=
  let base := if index / 2 mod num_sub_dags =? 0 then scores_new cm
              else match prev with Some d => sd_scores d | None => scores_new cm end in
  let sc := match prev with Some d => add_supporters d seq base | None => base end in
  let sc := mkScores (sc_map sc) ((index / 2 + 1) mod num_sub_dags =? 0) in
  if total_authorities sc =? cm_size cm then Ok sc else Err ERepCount.

(** output.rs 388-452 [CommittedSubDag::new]; the assertion that the leader is last is the [None]
    case.  [seed_signature()] is [Some] exactly when the header's epoch is past the fork. *)
Definition subdag_new (seq : list cert) (ldr : cert) (sc : scores) (prev : option subdag) (seed : N)
  : option subdag :=
  match rev seq with
  | [] => None
  | x :: _ =>
      if c_digest x =? c_digest ldr then
        let prev_ts := match prev with Some d => sd_ts d | None => 0 end in
        let rand := if seed_active (c_epoch ldr)
                    then fold_seed seed (c_round ldr) (h_seed (c_header ldr))
                    else legacy_rand (match aggregated_signature (c_state ldr) with
                                      | Some g => g | None => 0 end) in
        Some (mkSubDag (map c_header seq) sc (N.max prev_ts (h_created (c_header ldr))) rand)
      else None
  end.

(** header.rs 213-215 via certificate.rs 314-316. *)
Definition c_nonce (x : cert) : N := nonce (c_epoch x) (c_round x).

(** bullshark.rs 216-279, one turn of the [while let Some(leader)] loop: the new state, the
    sub-dag and whether the schedule changed (348-372 [update_leader_schedule]). *)
Definition commit_one (s : bstate) (ldr : cert) : result (bstate * subdag * bool) berr :=
  match order_dag gc_depth s ldr with
  | Err e => Err e
  | Ok seq =>
      let s1 := fold_left (update gc_depth) seq s in
      match resolve_scores (b_sub s1) seq (c_nonce ldr) with
      | Err e => Err e
      | Ok sc =>
          match subdag_new seq ldr sc (b_sub s1) (b_seed s1) with
          | None => Err EPanic
          | Some sd =>
              if sc_final sc
              then match table_new fsqrt cm (c_round ldr) sc pct with
                   | None => Err EPanic
                   | Some t => Ok (mkB (b_committed s1) (b_gc s1) (b_last s1) (Some sd) (b_dag s1)
                                       (sd_rand sd) t, sd, true)
                   end
              else Ok (mkB (b_committed s1) (b_gc s1) (b_last s1) (Some sd) (b_dag s1)
                           (sd_rand sd) (b_table s1), sd, false)
          end
      end
  end.

(** bullshark.rs 216-283, the whole loop. *)
Fixpoint commit_all (s : bstate) (leaders : list cert)
  : result (bstate * outcome * list subdag) berr :=
  match leaders with
  | [] => Ok (s, OCommit, [])
  | l :: rest =>
      match commit_one s l with
      | Err e => Err e
      | Ok (s', sd, changed) =>
          match changed, rest with
          | true, _ :: _ => Ok (s', OScheduleChanged, [sd])
          | _, _ =>
              match commit_all s' rest with
              | Ok (s'', o, ds) => Ok (s'', o, sd :: ds)
              | Err e => Err e
              end
          end
      end
  end.

(** bullshark.rs 304-323, the walk of [order_leaders] (outer [None] = the schedule panics). *)
Fixpoint walk (d : dag) (t : swap_table) (rs : list N) (cur : cert) (acc : list cert)
  : option (list cert) :=
  match rs with
  | [] => Some acc
  | r :: rs =>
      match leader cm choose t r with
      | None => None
      | Some a =>
          match find_cert d r (a_id a) with
          | None => walk d t rs cur acc
          | Some p => if linked d cur p then walk d t rs p (p :: acc) else walk d t rs cur acc
          end
      end
  end.
(** bullshark.rs 285-326 [order_leaders]. *)
Definition order_leaders (s : bstate) (ldr : cert) : result (list cert) berr :=
  if negb (c_round ldr mod 2 =? 0) then Err EOddLeader
  else match walk (b_dag s) (b_table s) (step_rounds (b_committed s + 2) (c_round ldr - 2)) ldr [ldr] with
       | None => Err EPanic
       | Some l => Ok l
       end.

(** bullshark.rs 188-202: the support of the leader in the next round *)
Definition supporters (d : dag) (r : N) (digest : N) : list cert :=
  filter (fun x => memN digest (c_parents x)) (round_table d r).

(** bullshark.rs 170-283 [commit_leader]. *)
Definition commit_leader (s : bstate) (r : N) : result (bstate * outcome * list subdag) berr :=
  match leader cm choose (b_table s) r with
  | None => Err EPanic
  | Some a =>
      match find_cert (b_dag s) r (a_id a) with
      | None => Ok (s, OLeaderNotFound, [])
      | Some l =>
          match round_table (b_dag s) (r + 1) with
          | [] => Err EMissingChildRound
          | _ =>
              if group_power cm (map c_origin (supporters (b_dag s) (r + 1) (c_digest l))) <? cm_validity cm
              then Ok (s, ONotEnoughSupport, [])
              else match order_leaders s l with
                   | Err e => Err e
                   | Ok ls => commit_all s ls
                   end
          end
      end
  end.

(** bullshark.rs 144-156, the retry loop of [process_certificate]. *)
Fixpoint commit_loop (fuel : nat) (s : bstate) (r : N)
  : result (bstate * outcome * list subdag) berr :=
  match fuel with
  | O => Err EFuel
  | S fuel =>
      match commit_leader s r with
      | Err e => Err e
      | Ok (s', OScheduleChanged, ds) =>
          match commit_loop fuel s' r with
          | Err e => Err e
          | Ok (s'', o, ds') => Ok (s'', o, ds ++ ds')
          end
      | Ok (s', o, ds) => Ok (s', o, ds)
      end
  end.

Definition with_dag (s : bstate) (d : dag) : bstate :=
  mkB (b_committed s) (b_gc s) (b_last s) (b_sub s) d (b_seed s) (b_table s).

(** bullshark.rs 114-168 [process_certificate] (metrics and timestamps left out). *)
Definition process_certificate (s : bstate) (x : cert) : result (bstate * outcome * list subdag) berr :=
  match try_insert_in_dag (b_dag s) (b_last s) (b_gc s) x true with
  | Err e => Err e
  | Ok (d, ins) =>
      let s := with_dag s d in
      if negb ins then Ok (s, OBelowCommitRound, [])
      else
        let r := c_round x - 1 in
        if negb (r mod 2 =? 0) || (r <? 2) then Ok (s, ONoLeaderOdd, [])
        else if r <=? b_committed s then Ok (s, OLeaderBelow, [])
        else match commit_loop (S (N.to_nat r)) s r with
             | Err e => Err e
             | Ok (s', o, []) => Ok (s', o, [])
             | Ok (s', o, ds) => Ok (s', OCommit, ds)
             end
  end.

(** state.rs 462-500 [new_certificate]: certificates of another epoch are ignored.  The certificate
    pack, the wait for execution and the channels are not modelled; the returned sub-dags are
    what is sent on the sequence channel. *)
Definition new_certificate (s : bstate) (x : cert) : result (bstate * list subdag) berr :=
  if c_epoch x =? cm_epoch cm
  then match process_certificate s x with Err e => Err e | Ok (s', _, ds) => Ok (s', ds) end
  else Ok (s, []).

(** ** Recovery *)

(** consensus_pack.rs 1250-1267 [read_last_committed]: the newest 50 commits of the epoch. *)
Definition lastn {A} (n : nat) (l : list A) : list A := rev (firstn n (rev l)).
Definition bump (m : bmap N) (a r : N) : bmap N :=
  bm_insert a (match bm_lookup a m with Some x => N.max x r | None => r end) m.
Definition LAST_COMMITTED_WINDOW : nat := 50.
Definition read_last_committed (chain : list subdag) : bmap N :=
  fold_left (fun m d => fold_left (fun m h => bump m (h_author h) (h_round h)) (sd_headers d)
                                  (bump m (h_author (sd_leader d)) (sd_round d)))
            (firstn LAST_COMMITTED_WINDOW (rev chain)) [].
(** consensus_pack.rs 1269-1287: the newest final scores among the newest 1000 commits. *)
Definition FINAL_WINDOW : nat := 1000.
Definition read_latest_final (chain : list subdag) : option subdag :=
  find (fun d => sc_final (sd_scores d)) (firstn FINAL_WINDOW (rev chain)).
(** leader_schedule.rs 262-281 [from_store]; outer [None] = a panic in [LeaderSwapTable::new]. *)
Definition recover_table (chain : list subdag) : option swap_table :=
  match read_latest_final chain with
  | None => Some table_default
  | Some d => table_new fsqrt cm (sd_round d) (sd_scores d) pct
  end.
(** state.rs 322-351 [resolve_seed_chain_anchor]. *)
Inductive seed_err := ELeaderRoundMismatch | EMissingSubDag | ESubDagWithoutRound.
Definition resolve_anchor (latest : option subdag) (last_committed_round epoch : N)
  : result N seed_err :=
  match latest, 0 <? last_committed_round with
  | Some d, true => if sd_round d =? last_committed_round then Ok (sd_rand d) else Err ELeaderRoundMismatch
  | None, true => Err EMissingSubDag
  | Some d, false => Err ESubDagWithoutRound
  | None, false => Ok (epoch_root epoch)
  end.
(** state.rs 111-136 [construct_dag_from_cert_store]; [certs] is what the certificate store returns
    for [after_round(gc_round + 1)].  [None] = the [expect] of new_from_store panics. *)
Fixpoint restore_dag (d : dag) (last : bmap N) (gc : N) (certs : list cert) : option dag :=
  match certs with
  | [] => Some d
  | x :: certs => match try_insert_in_dag d last gc x false with
                  | Ok (d', _) => restore_dag d' last gc certs
                  | Err _ => None
                  end
  end.
(** state.rs 354-412 [Consensus::spawn] with 85-109 [new_from_store]. *)
Definition maxN (l : list N) : N := fold_right N.max 0 l.
Definition recover (chain : list subdag) (certs : list cert) : option bstate :=
  let last := read_last_committed chain in
  let committed := maxN (map snd last) in
  let latest := match rev chain with [] => None | d :: _ => Some d end in
  match resolve_anchor latest committed (cm_epoch cm), recover_table chain,
        restore_dag [] last (gc_round committed gc_depth) certs with
  | Ok seed, Some t, Some d => Some (mkB committed (gc_round committed gc_depth) last latest d seed t)
  | _, _, _ => None
  end.
End Bull.
