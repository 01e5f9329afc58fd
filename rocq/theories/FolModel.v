(** Following consensus without taking part in it (observers, inactive validators): backward
    download walks from gossiped tips into the cache, the forward drain of cache and local packs
    into the sync channel, and the subscriber saving what arrives (C44).

    Every await point is a separate event.  Peers' answers are arbitrary record streams.  A local
    storage lookup may miss what is there ([seen] = false: wrong epoch guess, read error); it never
    invents anything (C42, C43 are about the packs themselves). *)
From Verif Require Import Util OutModel.
Local Open Scope nat_scope.

(** state-sync/src/consensus.rs 30-74 [WalkRange] with the walk that holds its guard: at which
    (number, hash) a backward walk stands, or the partial pack stream whose failure starts one. *)
Inductive job := Walking (num hash : N) (stop : N) | Streaming (num hash : N) (stop : N).
Record walk := { w_floor : N; w_ceil : N; w_job : job }.

(** state-sync/src/lib.rs 221-260: the streaming task of one epoch. *)
Record strm := { s_epoch : N; s_last : chdr; s_target : chdr }.

(** [f_cache]: the ConsensusCache table; [f_static], [f_stage]: outputs readable in static packs and
    in the staging pack; [f_log]: the current epoch's pack from number [f_start] on, sealed when it was
    imported; [f_latest]: latest_consensus_number; [f_tip]: last_consensus_header watch; [f_gap]:
    consensus_gap_request watch; [f_chan]: sync_output broadcast; [f_err]: a task ended with an error. *)
Record fol := mkf {
  f_cache : list (N * output); f_static : list output; f_stage : list output;
  f_epoch : N; f_start : N; f_log : list output; f_sealed : bool; f_latest : N;
  f_walks : list walk; f_first : bool; f_lastnum : option N;
  f_tip : option chdr; f_gap : option (N * N * N);
  f_strm : option strm; f_chan : list output; f_err : bool }.

Definition set_cache s c := mkf c (f_static s) (f_stage s) (f_epoch s) (f_start s) (f_log s) (f_sealed s) (f_latest s) (f_walks s) (f_first s) (f_lastnum s) (f_tip s) (f_gap s) (f_strm s) (f_chan s) (f_err s).
Definition set_walks s w := mkf (f_cache s) (f_static s) (f_stage s) (f_epoch s) (f_start s) (f_log s) (f_sealed s) (f_latest s) w (f_first s) (f_lastnum s) (f_tip s) (f_gap s) (f_strm s) (f_chan s) (f_err s).
Definition set_tip s t := mkf (f_cache s) (f_static s) (f_stage s) (f_epoch s) (f_start s) (f_log s) (f_sealed s) (f_latest s) (f_walks s) (f_first s) (f_lastnum s) t (f_gap s) (f_strm s) (f_chan s) (f_err s).
Definition set_strm s t := mkf (f_cache s) (f_static s) (f_stage s) (f_epoch s) (f_start s) (f_log s) (f_sealed s) (f_latest s) (f_walks s) (f_first s) (f_lastnum s) (f_tip s) (f_gap s) t (f_chan s) (f_err s).
Definition set_gap s g := mkf (f_cache s) (f_static s) (f_stage s) (f_epoch s) (f_start s) (f_log s) (f_sealed s) (f_latest s) (f_walks s) (f_first s) (f_lastnum s) (f_tip s) g (f_strm s) (f_chan s) (f_err s).
Definition set_chan s c := mkf (f_cache s) (f_static s) (f_stage s) (f_epoch s) (f_start s) (f_log s) (f_sealed s) (f_latest s) (f_walks s) (f_first s) (f_lastnum s) (f_tip s) (f_gap s) (f_strm s) c (f_err s).
Definition set_stage s x := mkf (f_cache s) (f_static s) x (f_epoch s) (f_start s) (f_log s) (f_sealed s) (f_latest s) (f_walks s) (f_first s) (f_lastnum s) (f_tip s) (f_gap s) (f_strm s) (f_chan s) (f_err s).
Definition set_static s x := mkf (f_cache s) x (f_stage s) (f_epoch s) (f_start s) (f_log s) (f_sealed s) (f_latest s) (f_walks s) (f_first s) (f_lastnum s) (f_tip s) (f_gap s) (f_strm s) (f_chan s) (f_err s).
Definition set_log s l n := mkf (f_cache s) (f_static s) (f_stage s) (f_epoch s) (f_start s) l (f_sealed s) n (f_walks s) (f_first s) (f_lastnum s) (f_tip s) (f_gap s) (f_strm s) (f_chan s) (f_err s).
Definition set_first s x n := mkf (f_cache s) (f_static s) (f_stage s) (f_epoch s) (f_start s) (f_log s) (f_sealed s) (f_latest s) (f_walks s) x n (f_tip s) (f_gap s) (f_strm s) (f_chan s) (f_err s).
Definition fail s := mkf (f_cache s) (f_static s) (f_stage s) (f_epoch s) (f_start s) (f_log s) (f_sealed s) (f_latest s) (f_walks s) (f_first s) (f_lastnum s) (f_tip s) (f_gap s) None (f_chan s) true.

(** The cache table, keyed by number. *)
Definition cget (n : N) (c : list (N * output)) : option output :=
  option_map snd (find (fun p => (fst p =? n)%N) c).
Definition cdel (n : N) (c : list (N * output)) : list (N * output) := filter (fun p => negb (fst p =? n)%N) c.
Definition cput (n : N) (o : output) (c : list (N * output)) : list (N * output) := (n, o) :: cdel n c.

Definition by_num (n : N) (l : list output) : option output := find (fun o => (out_num o =? n)%N) l.
(** storage/src/consensus.rs 881-918 [consensus_output_by_number] (and 843-878, the header): the
    current pack, else staging, else a static pack.  Simplified: which pack is asked first depends on
    [number_to_epoch]; packs holding one number hold the same output (C42, C43). *)
Definition local (s : fol) (n : N) : option output :=
  match (if (f_start s <=? n)%N then nth_error (f_log s) (N.to_nat (n - f_start s)) else None) with
  | Some o => Some o
  | None => match by_num n (f_stage s) with Some o => Some o | None => by_num n (f_static s) end
  end.

(** consensus_bus.rs 504-514 [send_last_consensus_header_if_newer]. *)
Definition newer_tip (s : fol) (h : chdr) : fol :=
  if ((match f_tip s with None => 0 | Some t => ch_num t end) <? ch_num h)%N then set_tip s (Some h) else s.

(* ---------- the walk ledger ---------- *)

(** state-sync/src/consensus.rs 95-124 [reserve_if_uncovered]: overlapping ranges sorted by floor,
    then one sweep.  Sorting is insertion sort on (floor, ceil). *)
Definition rle (a b : N * N) : bool := ((fst a <? fst b) || ((fst a =? fst b) && (snd a <=? snd b)))%N.
Fixpoint rins (x : N * N) (l : list (N * N)) : list (N * N) :=
  match l with [] => [x] | y :: t => if rle x y then x :: l else y :: rins x t end.
Definition rsort (l : list (N * N)) : list (N * N) := fold_right rins [] l.
(** The sweep; u64 saturation at the top cannot matter (a range reaching [ceil] ends it). *)
Fixpoint sweep (ceil needed : N) (l : list (N * N)) : bool :=
  match l with
  | [] => false
  | (a, b) :: t => if (needed <? a)%N then false else if (ceil <=? b)%N then true else sweep ceil (N.max needed (b + 1)) t
  end.
Definition covered (ranges : list (N * N)) (floor ceil : N) : bool :=
  sweep ceil floor (rsort (filter (fun r => ((floor <=? snd r) && (fst r <=? ceil))%N) ranges)).
Definition ranges (s : fol) : list (N * N) := map (fun w => (w_floor w, w_ceil w)) (f_walks s).

(** state-sync/src/consensus.rs 458-470 [get_consensus_header_range]: nothing to do below the stop. *)
Definition start_walk (s : fol) (floor num hash : N) : fol :=
  if (num <? floor)%N then s
  else set_walks s (f_walks s ++ [{| w_floor := floor; w_ceil := num; w_job := Walking num hash floor |}]).

(** consensus.rs 501-590 [manage_new_consensus]: the first tip tries a partial pack stream ([partial]:
    the checks of 270-320 pass) and else walks; later tips walk while fewer than six jobs run.
    Requesting packs of finished epochs is the event [Import]. *)
Definition gossip (s : fol) (partial : bool) (num hash : N) : fol :=
  let endn := match f_lastnum s with Some n => n | None => 0%N end in
  if negb (f_first s) then
    let s1 := set_first s true (f_lastnum s) in
    if partial then set_walks s1 (f_walks s1 ++ [{| w_floor := (f_latest s + 1)%N; w_ceil := num; w_job := Streaming num hash endn |}])
    else start_walk s1 endn num hash
  else if length (f_walks s) <? 6
       then start_walk (set_first s true (Some (num + 1)%N)) endn num hash
       else s.

(** consensus.rs 672-705: fill a gap unless the running jobs cover it. *)
Definition fill_gap (s : fol) : fol :=
  match f_gap s with
  | None => s
  | Some (num, hash, floor) =>
      if (num <? floor)%N then s else if covered (ranges s) floor num then s else start_walk s floor num hash
  end.

Section F.
Variable bd : N -> N.
Variable hd : N -> subdag -> N -> N.
Variable addr : N -> N -> option N.        (* epoch of the decoding pack's committee, author *)
Variable cap : N -> nat.
Variable H0 : chdr.                        (* ConsensusHeader::default() *)

Definition remove_nth {A} (i : nat) (l : list A) : list A := firstn i l ++ skipn (S i) l.
Definition replace_nth {A} (i : nat) (x : A) (l : list A) : list A := firstn i l ++ x :: skipn (S i) l.

(** consensus.rs 471-498: the loop around one step: go on at the parent, or end. *)
Definition continue_walk (s : fol) (i : nat) (w : walk) (num hash stop : N) : fol :=
  if (num <? stop)%N then set_walks s (remove_nth i (f_walks s))
  else set_walks s (replace_nth i {| w_floor := w_floor w; w_ceil := w_ceil w; w_job := Walking num hash stop |} (f_walks s)).

(** consensus.rs 160-218 [get_consensus_output], network/mod.rs 537-620, consensus_pack.rs 1522-1535:
    [answer] is the committee epoch used for decoding and the peer's records; [None] when no peer
    answers (retry). *)
Definition walk_step (s : fol) (i : nat) (seen : bool) (answer : option (N * list rec)) : fol :=
  match nth_error (f_walks s) i with
  | Some w =>
      match w_job w with
      | Streaming _ _ _ => s
      | Walking num hash stop =>
          if (if seen then match local s num with Some _ => true | None => false end else false)
          then set_walks s (remove_nth i (f_walks s))
          else match cget num (f_cache s) with
               | Some o => if (0 <? out_num o)%N then continue_walk s i w (out_num o - 1) (out_parent o) stop
                           else set_walks s (remove_nth i (f_walks s))
               | None =>
                   match answer with
                   | None => s
                   | Some (e, recs) =>
                       match iter_to_output bd (addr e) hd (cap e) (EDigest hash) recs with
                       | ROk o _ =>
                           let s1 := newer_tip (set_cache s (cput num o (f_cache s))) (header_of o) in
                           if (0 <? num)%N then continue_walk s1 i w (num - 1) (out_parent o) stop
                           else set_walks s1 (remove_nth i (f_walks s1))
                       | _ => s
                       end
                   end
               end
      end
  | None => s
  end.

(** consensus.rs 318-345, 520-545: a partial pack stream ends: its outputs are staged and the tip is
    nudged, or the backward walk starts. *)
Definition stream_end (s : fol) (i : nat) (r : option (list output)) : fol :=
  match nth_error (f_walks s) i with
  | Some w =>
      match w_job w with
      | Walking _ _ _ => s
      | Streaming num hash stop =>
          let s1 := set_walks s (remove_nth i (f_walks s)) in
          match r with
          | Some os => let s2 := set_stage s1 os in
                       match local s2 num with Some o => newer_tip s2 (header_of o) | None => s2 end
          | None => start_walk s1 stop num hash
          end
      end
  | None => s
  end.

(** state-sync/src/lib.rs 352-453: one turn of the loop of [catch_up_consensus_from_to].
    [exec_ok]: wait_for_execution of the leader's base block. *)
Definition drain (s : fol) (seen exec_ok : bool) : fol :=
  match f_strm s with
  | None => s
  | Some t =>
      if (ch_num (s_target t) <=? ch_num (s_last t))%N then s
      else
        let n := (ch_num (s_last t) + 1)%N in
        match (match cget n (f_cache s) with
               | Some o => Some (o, true)
               | None => if seen then option_map (fun o => (o, false)) (local s n) else None
               end) with
        | None => s
        | Some (o, from_cache) =>
            if (s_epoch t <? sd_epoch (out_sub o))%N then set_strm s None
            else
              let s1 := if from_cache : bool then set_cache s (cdel n (f_cache s)) else s in
              if negb (hd (digest_of hd (s_last t)) (out_sub o) n =? digest_of hd (header_of o))%N then fail s1
              else
                let s2 := set_strm s1 (Some {| s_epoch := s_epoch t; s_last := header_of o; s_target := s_target t |}) in
                if (out_num o <=? f_latest s)%N then s2
                else if exec_ok then set_chan s2 (f_chan s2 ++ [o])
                else fail s1
        end
  end.

(** storage/src/consensus.rs 746-786 [save_consensus_output] with consensus_pack.rs 1036-1088;
    [None] is an error. *)
Definition save (s : fol) (o : output) : option fol :=
  if (out_num o <=? f_latest s)%N then None
  else if negb (sd_epoch (out_sub o) =? f_epoch s)%N then None
  else
    let idx := N.to_nat (out_num o - f_start s)%N in
    if f_sealed s
    then if ((f_start s <=? out_num o)%N && (idx <? length (f_log s)))%bool then Some (set_log s (f_log s) (out_num o)) else None
    else if idx <? length (f_log s) then Some (set_log s (f_log s) (out_num o))
    else if idx =? length (f_log s) then Some (set_log s (f_log s ++ [o]) (out_num o))
    else None.

(** subscriber.rs 139-184 [handle_sync_output] on the next output of the channel; the staging pack is
    dropped when its last output is saved (161-165). *)
Definition stage_final (s : fol) : option N := option_map out_num (nth_error (rev (f_stage s)) 0).
Definition handle (s : fol) : fol * option output :=
  match f_chan s with
  | [] => (s, None)
  | o :: rest =>
      let s1 := set_chan s rest in
      if (f_epoch s <? sd_epoch (out_sub o))%N then (s1, None)
      else match save s1 o with
           | None => (fail s1, None)
           | Some s2 => (if match stage_final s2 with Some n => (n =? out_num o)%N | None => false end then set_stage s2 [] else s2, Some o)
           end
  end.

(** Events.  [Start e pk from]: tasks of epoch [e] start (the old ones are gone, the channel has a new
    subscription): [pk] is the epoch's pack if it is not the one already open (start, outputs, sealed),
    [from] the number of the executed header the stream starts after (lib.rs 229-231; 0, or not found in
    the local packs: the default header).  [Crash]: the process dies; [m] outputs of the current pack and
    the slot value [l] survive (C41, C42); cache, staging and walks are gone (consensus.rs 629-636,
    storage/src/consensus.rs 369-372). *)
Inductive ev :=
| Gossip (partial : bool) (num hash : N)
| Walk (i : nat) (seen : bool) (answer : option (N * list rec))
| WalkEnd (i : nat)
| StreamEnd (i : nat) (r : option (list output))
| Import (os : list output)
| Nudge (num : N)
| Stall
| FillGap
| Poll
| Drain (seen exec_ok : bool)
| Handle
| Lag
| Start (e : N) (pk : option (N * list output * bool)) (from : N)
| Crash (m : nat) (l : N).

Definition header_at (s : fol) (n : N) : chdr :=
  if (n =? 0)%N then H0 else match local s n with Some o => header_of o | None => H0 end.

(** Ending the tasks of an epoch and opening the pack of the next one (storage/src/consensus.rs
    430-470 [new_epoch]: staging of an older epoch is dropped). *)
Definition open_pack (s : fol) (e : N) (pk : option (N * list output * bool)) : fol :=
  match pk with
  | Some (st, l, sealed) => mkf (f_cache s) (f_static s ++ f_log s) (if (f_epoch s <? e)%N then [] else f_stage s) e st l sealed (f_latest s) (f_walks s) (f_first s) (f_lastnum s) (f_tip s) (f_gap s) None [] false
  | None => mkf (f_cache s) (f_static s) (f_stage s) (f_epoch s) (f_start s) (f_log s) (f_sealed s) (f_latest s) (f_walks s) (f_first s) (f_lastnum s) (f_tip s) (f_gap s) None [] false
  end.

Definition step (s : fol) (e : ev) : fol * option output :=
  match e with
  | Gossip p num hash => (gossip s p num hash, None)
  | Walk i seen a => (walk_step s i seen a, None)
  | WalkEnd i => (set_walks s (remove_nth i (f_walks s)), None)      (* panic or cancel: guard dropped *)
  | StreamEnd i r => (stream_end s i r, None)
  | Import os => (set_static s (f_static s ++ os), None)
  | Nudge n => (match local s n with Some o => newer_tip s (header_of o) | None => s end, None)  (* consensus.rs 398-415 *)
  | Stall => (match f_strm s with                                                        (* lib.rs 283-312 *)
              | Some t => if (ch_num (s_last t) <? ch_num (s_target t))%N
                          then set_gap s (Some (ch_num (s_target t), digest_of hd (s_target t), (ch_num (s_last t) + 1)%N)) else s
              | None => s end, None)
  | FillGap => (fill_gap s, None)
  | Poll => (match f_strm s with                                                         (* lib.rs 250-251, 326-331 *)
             | Some t => set_strm s (Some {| s_epoch := s_epoch t; s_last := s_last t;
                                             s_target := match f_tip s with Some h => h | None => H0 end |})
             | None => s end, None)
  | Drain seen ok => (drain s seen ok, None)
  | Handle => handle s
  | Lag => (set_chan s (tl (f_chan s)), None)                                            (* types/src/sync.rs 200-222 *)
  | Start e pk from =>
      let s1 := open_pack s e pk in
      (set_strm s1 (Some {| s_epoch := e; s_last := header_at s1 from; s_target := match f_tip s1 with Some h => h | None => H0 end |}), None)
  | Crash m l => (mkf [] (f_static s) [] (f_epoch s) (f_start s) (firstn m (f_log s)) (f_sealed s) l [] false None None None None [] false, None)
  end.

(** The outputs the subscriber saves and broadcasts, in order. *)
Fixpoint run (s : fol) (es : list ev) : fol * list output :=
  match es with
  | [] => (s, [])
  | e :: t => let '(s1, o) := step s e in let '(s2, os) := run s1 t in (s2, match o with Some x => x :: os | None => os end)
  end.
End F.
