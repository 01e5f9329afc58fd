(** Model of the certificate store and of certificate catch-up.
    Sources: crates/storage/src/stores/certificate_store.rs 120-460 (the three tables),
    crates/storage/src/mem_db.rs 206-275 (iteration order, skip_to, record_prior_to),
    crates/node/src/manager/node/close_epoch.rs 754-766 (the clear at an epoch's end),
    crates/consensus/primary/src/network/message.rs 78-235 (request bounds),
    crates/consensus/primary/src/state_sync/cert_collector.rs (what a responder reads),
    crates/consensus/primary/src/network/sync_codec.rs 51-83, 364-610 (frames of the response),
    crates/consensus/primary/src/certificate_fetcher.rs (the requester).
    Simplifications: a certificate is its digest (the header's), round, author, epoch, the digests it names as parents, its
    encoded size and whether it carries an aggregated signature; table keys are compared as pairs (the tables compare the
    big-endian encoding of the pair); database errors are left out (every one of them ends the task); the roaring crate is a
    pair of functions between sets and bytes, only its header is read here; metrics and logs are left out. *)
From Verif Require Import Util.
Local Open Scope N_scope.

Definition U32MAX : N := 4294967295.
(** storage/src/lib.rs 54 *)
Definition ROUNDS_TO_KEEP : N := 64.

Record fcert := mkFC {
  f_dig : N; f_round : N; f_origin : N; f_epoch : N; f_parents : list N;
  f_size : N;               (* bytes of its encoding *)
  f_signed : bool           (* aggregated_signature() is Some *)
}.

(** ---------- tables with pair keys: BTreeMap order, compared lexicographically ---------- *)
Definition pkey : Type := N * N.
Definition plt (a b : pkey) : bool := (fst a <? fst b) || ((fst a =? fst b) && (snd a <? snd b)).
Definition peq (a b : pkey) : bool := (fst a =? fst b) && (snd a =? snd b).
Definition ptab (V : Type) : Type := list (pkey * V).
Fixpoint pt_insert {V} (k : pkey) (v : V) (m : ptab V) : ptab V :=
  match m with
  | [] => [(k, v)]
  | x :: m' => if plt k (fst x) then (k, v) :: m
               else if peq k (fst x) then (k, v) :: m' else x :: pt_insert k v m'
  end.
Definition pt_get {V} (k : pkey) (m : ptab V) : option V :=
  match find (fun x => peq k (fst x)) m with Some x => Some (snd x) | None => None end.
Definition pt_remove {V} (k : pkey) (m : ptab V) : ptab V := filter (fun x => negb (peq k (fst x))) m.
Definition bt_remove {V} (k : N) (m : bmap V) : bmap V := filter (fun x => negb (k =? fst x)) m.
(** mem_db.rs 206-231: the rows from the first key not below [k] on *)
Fixpoint pt_skip_to {V} (k : pkey) (m : ptab V) : ptab V :=
  match m with
  | [] => []
  | x :: m' => if plt (fst x) k then pt_skip_to k m' else m
  end.
(** mem_db.rs 259-278: the last row strictly before [k] *)
Fixpoint pt_prior {V} (k : pkey) (last : option (pkey * V)) (m : ptab V) : option (pkey * V) :=
  match m with
  | [] => last
  | x :: m' => if negb (plt (fst x) k) then last else pt_prior k (Some x) m'
  end.

(** ---------- the certificate store ---------- *)
Record cstore := mkCS {
  cs_certs : bmap fcert;     (* Certificates *)
  cs_round : ptab N;         (* CertificateDigestByRound: (round, origin) *)
  cs_origin : ptab N         (* CertificateDigestByOrigin: (origin, round) *)
}.
Definition cs_empty : cstore := mkCS [] [] [].

(** certificate_store.rs 128-147 [save_cert] *)
Definition save_cert (c : fcert) (s : cstore) : cstore :=
  mkCS (bm_insert (f_dig c) c (cs_certs s))
       (pt_insert (f_round c, f_origin c) (f_dig c) (cs_round s))
       (pt_insert (f_origin c, f_round c) (f_dig c) (cs_origin s)).
(** 156-163: collect from the start, stop at the first round that stays *)
Fixpoint gc_list (t : N) (m : ptab N) : ptab N :=
  match m with
  | [] => []
  | x :: m' => if fst (fst x) <? t then x :: gc_list t m' else []
  end.
Definition gc_remove (s : cstore) (x : pkey * N) : cstore :=
  let r := fst (fst x) in let o := snd (fst x) in
  mkCS (bt_remove (snd x) (cs_certs s)) (pt_remove (r, o) (cs_round s)) (pt_remove (o, r) (cs_origin s)).
(** 150-173 [gc_rounds] *)
Definition gc_rounds (target : N) (s : cstore) : cstore :=
  if target <=? ROUNDS_TO_KEEP then s
  else fold_left gc_remove (gc_list (target - ROUNDS_TO_KEEP) (cs_round s)) s.
(** 177-186 [write]: two transactions *)
Definition cs_write (c : fcert) (s : cstore) : cstore := gc_rounds (f_round c) (save_cert c s).
(** 191-209 [write_all] *)
Definition save_all (l : list fcert) (s : cstore) : cstore := fold_left (fun s c => save_cert c s) l s.
Definition max_round (l : list fcert) : N := fold_left (fun r c => N.max r (f_round c)) l 0.
Definition cs_write_all (l : list fcert) (s : cstore) : cstore := gc_rounds (max_round l) (save_all l s).
(** 213-215 [read], 219-228 [read_by_index], 230-232 [contains] *)
Definition cs_read (d : N) (s : cstore) : option fcert := bm_lookup d (cs_certs s).
Definition cs_read_by_index (o r : N) (s : cstore) : option fcert :=
  match pt_get (o, r) (cs_origin s) with Some d => cs_read d s | None => None end.
Definition cs_contains (d : N) (s : cstore) : bool :=
  match bm_lookup d (cs_certs s) with Some _ => true | None => false end.
(** 272-294 [delete] *)
Definition cs_delete (d : N) (s : cstore) : cstore :=
  match bm_lookup d (cs_certs s) with
  | None => s
  | Some c => mkCS (bt_remove d (cs_certs s)) (pt_remove (f_round c, f_origin c) (cs_round s))
                   (pt_remove (f_origin c, f_round c) (cs_origin s))
  end.
(** 298-304, 332-338: AuthorityIdentifier::default() is the least identifier *)
Definition rows_from (round : N) (s : cstore) : ptab N :=
  if 0 <? round then pt_skip_to (round - 1, 0) (cs_round s) else cs_round s.
(** 306-325: None is the error of a missing certificate *)
Fixpoint deref (round : N) (rows : ptab N) (s : cstore) : option (list fcert) :=
  match rows with
  | [] => Some []
  | x :: rest =>
    if round <=? fst (fst x) then
      match cs_read (snd x) s with
      | Some c => match deref round rest s with Some l => Some (c :: l) | None => None end
      | None => None
      end
    else deref round rest s
  end.
(** 298-327 [after_round] *)
Definition cs_after_round (round : N) (s : cstore) : option (list fcert) := deref round (rows_from round s) s.
(** 332-351 [origins_after_round], the map of rounds flattened: (round, origin) rows in order *)
Definition cs_origins_after (round : N) (s : cstore) : list pkey :=
  map fst (filter (fun x => negb (fst (fst x) <? round)) (rows_from round s)).
(** 354-385 [last_two_rounds_certs]; [round] = 0 means unset *)
Fixpoint last_two (rows : ptab N) (round : N) (s : cstore) : option (list fcert) :=
  match rows with
  | [] => Some []
  | x :: rest =>
    let cr := fst (fst x) in
    if negb (round =? 0) && (cr <? round - 1) then Some []
    else match cs_read (snd x) s with
         | None => None
         | Some c => match last_two rest (if round =? 0 then cr else round) s with
                     | Some l => Some (c :: l) | None => None end
         end
  end.
Definition cs_last_two (s : cstore) : option (list fcert) := last_two (rev (cs_round s)) 0 s.
(** 403-407 [highest_round_number] *)
Definition cs_highest (s : cstore) : N := match rev (cs_round s) with x :: _ => fst (fst x) | [] => 0 end.
(** 411-419 [last_round_number], 389-399 [last_round] *)
Definition cs_last_number (o : N) (s : cstore) : option N :=
  match pt_prior (o, U32MAX) None (cs_origin s) with
  | Some x => if fst (fst x) =? o then Some (snd (fst x)) else None
  | None => None
  end.
Definition cs_last_round (o : N) (s : cstore) : option fcert :=
  match pt_prior (o, U32MAX) None (cs_origin s) with
  | Some x => if fst (fst x) =? o then cs_read (snd x) s else None
  | None => None
  end.
(** 423-435 [next_round_number]; round + 1 on u32 wraps in a release build *)
Definition cs_next_number (o round : N) (s : cstore) : option N :=
  match pt_skip_to (o, (round + 1) mod (U32MAX + 1)) (cs_origin s) with
  | x :: _ => if fst (fst x) =? o then Some (snd (fst x)) else None
  | [] => None
  end.
(** 438-447 [clear]: one transaction *)
Definition cs_clear (s : cstore) : cstore := cs_empty.
(** close_epoch.rs 757-759: three separate clears; [n] of them happened before the crash (3: none missed) *)
Definition epoch_clear (n : nat) (s : cstore) : cstore :=
  match n with
  | 0%nat => s
  | 1%nat => mkCS [] (cs_round s) (cs_origin s)
  | 2%nat => mkCS [] [] (cs_origin s)
  | _ => cs_empty
  end.

(** ---------- the request (message.rs) ---------- *)
Record freq := mkReq { rq_bound : N; rq_skip : list (N * list N) }.   (* bitmaps as bytes *)
Definition le_u32 (start : nat) (b : list N) : option N :=
  match firstn 4 (skipn start b) with
  | [x; y; z; w] => Some (x + 256 * y + 65536 * z + 16777216 * w)
  | _ => None
  end.
(** message.rs 211-232 [roaring_container_count] *)
Definition container_count (b : list N) : option N :=
  match le_u32 0 b with
  | None => None
  | Some cookie =>
    if cookie =? 12346 then le_u32 4 b
    else if N.land cookie 65535 =? 12347 then Some (N.shiftr cookie 16 + 1) else None
  end.
Fixpoint all_some {A B} (f : A -> option B) (l : list A) : option (list B) :=
  match l with
  | [] => Some []
  | x :: t => match f x with
              | Some y => match all_some f t with Some ys => Some (y :: ys) | None => None end
              | None => None
              end
  end.
Definition checked_add (a b : N) : option N := if a + b <=? U32MAX then Some (a + b) else None.
Section Codec.
Variable ser : list N -> list N.              (* RoaringBitmap::serialize_into of a set given in ascending order *)
Variable deser : list N -> option (list N).   (* RoaringBitmap::deserialize_from, then into_iter *)
(** message.rs 130-166: one entry *)
Definition decode_entry (bound max : N) (e : N * list N) : option (N * list N) :=
  match container_count (snd e) with
  | None => None
  | Some n => if n <=? max then
      match deser (snd e) with
      | None => None
      | Some l => if N.of_nat (length l) <=? max then
          match all_some (checked_add bound) l with Some rs => Some (fst e, rs) | None => None end
        else None
      end else None
  end.
(** message.rs 112-169 [get_bounds]; collecting into a BTreeMap: a repeated authority keeps the later entry *)
Definition get_bounds (max_skip max_auth : N) (q : freq) : option (N * bmap (list N)) :=
  if N.of_nat (length (rq_skip q)) <=? max_auth then
    match all_some (decode_entry (rq_bound q) max_skip) (rq_skip q) with
    | Some es => Some (rq_bound q, bm_of_list es)
    | None => None
    end
  else None.
(** message.rs 174-196 [set_bounds] *)
Definition set_bounds (gc : N) (w : bmap (list N)) : freq :=
  mkReq gc (map (fun e => (fst e, ser (map (fun v => v - gc) (snd e)))) w).

(** ---------- the responder (cert_collector.rs) ---------- *)
Record coll := mkColl { k_queue : list pkey; k_skip : bmap (list N) }.
(** the heap as an ascending list: push inserts, pop takes the head *)
Fixpoint q_push (k : pkey) (q : list pkey) : list pkey :=
  match q with [] => [k] | x :: q' => if plt k x then k :: q else x :: q_push k q' end.
(** 113-130 [find_next_round]; the loop visits each row of the authority at most once *)
Fixpoint find_next (fuel : nat) (s : cstore) (o cur : N) (skip : list N) : option N :=
  match fuel with
  | 0%nat => None
  | S f => match cs_next_number o cur s with
           | Some r => if memN r skip then find_next f s o r skip else Some r
           | None => None
           end
  end.
Definition next_of (s : cstore) (o cur : N) (skip : list N) : option N :=
  find_next (S (length (cs_origin s))) s o cur skip.
(** 83-100: the first round of each authority *)
Definition init_queue (s : cstore) (bound : N) (skip : bmap (list N)) : list pkey :=
  fold_left (fun q e => match next_of s (fst e) bound (snd e) with
                        | Some r => q_push (r, fst e) q | None => q end) skip [].
(** 57-110 [new] *)
Definition coll_new (s : cstore) (max_skip max_auth : N) (q : freq) : option coll :=
  match get_bounds max_skip max_auth q with
  | None => None
  | Some (bound, skip) =>
    if existsb (fun e => max_skip <? N.of_nat (length (snd e))) skip then None
    else Some (mkColl (init_queue s bound skip) skip)
  end.
(** 133-155 [next_certificate]; every turn pops an entry *)
Fixpoint next_cert (fuel : nat) (s : cstore) (k : coll) : option fcert * coll :=
  match fuel with
  | 0%nat => (None, k)
  | S f =>
    match k_queue k with
    | [] => (None, k)
    | (r, o) :: q =>
      match cs_read_by_index o r s with
      | Some c =>
        match bm_lookup o (k_skip k) with
        | None => (None, mkColl q (k_skip k))            (* the Internal error: ends the stream *)
        | Some sk =>
          (Some c, mkColl (match next_of s o r sk with Some r' => q_push (r', o) q | None => q end) (k_skip k))
        end
      | None => next_cert f s (mkColl q (k_skip k))
      end
    end
  end.
(** 171-190 the iterator, driven by the sender: at each call the store may have changed and the time may be up *)
Fixpoint coll_run (sched : list (cstore * bool)) (k : coll) : list fcert :=
  match sched with
  | [] => []
  | (s, timeup) :: rest =>
    if timeup then []
    else match next_cert (S (length (k_queue k))) s k with
         | (Some c, k') => c :: coll_run rest k'
         | (None, _) => []
         end
  end.
End Codec.

(** ---------- the frames (sync_codec.rs) ---------- *)
Definition BATCH_TARGET : N := 262144.                          (* 56 *)
Definition MAX_FRAME : N := BATCH_TARGET * 2.                   (* 62 *)
Definition RESPONSE_CAP : N := 67108864.                        (* 70 *)
Definition ACCEPT_CAP : N := RESPONSE_CAP + MAX_FRAME.          (* 82-83 *)
Definition sizes (l : list fcert) : N := sumN (map f_size l).
(** 411-414 the scan: stop once the cap is reached, the certificate that crosses it included *)
Fixpoint scan_cap (sent : N) (l : list fcert) : list fcert :=
  match l with
  | [] => []
  | c :: t => if sent <? RESPONSE_CAP then c :: scan_cap (sent + f_size c) t else []
  end.
(** 485-520 [CertBatch::push], [finish]: the batches that become Data frames *)
Fixpoint batch_up (cur : list fcert) (l : list fcert) : list (list fcert) :=
  match l with
  | [] => if 0 <? N.of_nat (length cur) then [cur] else []
  | c :: t => let cur' := cur ++ [c] in
              if BATCH_TARGET <=? sizes cur' then cur' :: batch_up [] t else batch_up cur' t
  end.
Definition send_certs (l : list fcert) : list (list fcert) := batch_up [] (scan_cap 0 l).
(** bytes of the ULEB128 length a BCS vector starts with *)
Definition uleb_len (n : N) : N :=
  if n <? 128 then 1 else if n <? 16384 then 2 else if n <? 2097152 then 3 else if n <? 268435456 then 4 else 5.
Definition data_len (b : list fcert) : N := uleb_len (N.of_nat (length b)) + sizes b.
(** the frame: a variant tag, the length of the bytes, the bytes *)
Definition frame_len (b : list fcert) : N := 1 + uleb_len (data_len b) + data_len b.
(** 543-610 [read_sync_certificates] on the Data frames up to End; a frame above the maximum is an error *)
Fixpoint read_certs (total : N) (frames : list (list fcert)) : option (list fcert) :=
  match frames with
  | [] => Some []
  | b :: t =>
    if frame_len b <=? MAX_FRAME then
      let total' := total + data_len b in
      if total' <=? ACCEPT_CAP then
        match read_certs total' t with Some l => Some (b ++ l) | None => None end
      else None
    else None
  end.

(** ---------- asking the peers (certificate_fetcher.rs 453-565) ---------- *)
Inductive fan_ev :=
| FTimer                                          (* the stagger timer fired *)
| FResult (peer : nat) (r : option (list fcert)). (* a spawned fetch reported *)
Inductive fan_out := FWait (asked received : nat) | FGot (l : list fcert) | FFail.
(** certificate.rs 462-471: every certificate must carry an aggregated signature *)
Definition valid_response (l : list fcert) : bool := negb (Nat.eqb (length l) 0) && forallb f_signed l.
Definition fan_start (n : nat) : fan_out := if Nat.eqb n 0 then FFail else FWait 1 0.
Definition fan_step (n : nat) (st : fan_out) (e : fan_ev) : fan_out :=
  match st with
  | FWait asked received =>
    match e with
    | FTimer => if Nat.ltb asked n then FWait (S asked) received else st
    | FResult _ r =>
      match r with
      | Some l => if valid_response l then FGot l
                  else if Nat.leb n asked && Nat.leb asked (S received) then FFail else FWait asked (S received)
      | None => if Nat.leb n asked && Nat.leb asked (S received) then FFail else FWait asked (S received)
      end
    end
  | _ => st
  end.
Definition fan_run (n : nat) (evs : list fan_ev) : fan_out := fold_left (fan_step n) evs (fan_start n).

(** ---------- the fetcher (certificate_fetcher.rs 150-385) ---------- *)
Record fetcher := mkF { ft_targets : bmap N; ft_task : option freq }.
(** what the fetcher reads when it handles an event *)
Record fenv := mkFE { fe_store : cstore; fe_committed : N; fe_depth : N }.
(** consensus/utils.rs 60-62 *)
Definition gc_of (e : fenv) : N := fe_committed e - fe_depth e.
Fixpoint set_insert (x : N) (l : list N) : list N :=
  match l with [] => [x] | y :: t => if x <? y then x :: l else if x =? y then l else y :: set_insert x t end.
(** 351-378 [get_written_rounds] *)
Definition written_rounds (committee : list N) (gc : N) (s : cstore) : bmap (list N) :=
  fold_left (fun w k => bm_insert (snd k) (set_insert (fst k) (match bm_lookup (snd k) w with Some l => l | None => [] end)) w)
            (cs_origins_after (gc + 1) s)
            (fold_left (fun w a => bm_insert a [] w) committee []).
(** 322-348 [update_targets] *)
Definition last_written (gc : N) (w : bmap (list N)) (o : N) : N :=
  match bm_lookup o w with Some l => match rev l with x :: _ => x | [] => gc end | None => gc end.
Definition update_targets (gc : N) (w : bmap (list N)) (t : bmap N) : bmap N :=
  filter (fun e => last_written gc w (fst e) <? snd e) t.
Section Fetcher.
Variable ser : list N -> list N.
Variable committee : list N.
Variable epoch : N.
(** 254-319 [start_fetch_task] *)
Definition start_fetch (e : fenv) (f : fetcher) : fetcher :=
  let w := written_rounds committee (gc_of e) (fe_store e) in
  let t := update_targets (gc_of e) w (ft_targets f) in
  match t with
  | [] => mkF t (ft_task f)
  | _ => mkF t (Some (set_bounds ser (gc_of e) w))
  end.
(** 216-234 [should_fetch_certificate] *)
Definition should_fetch (e : fenv) (f : fetcher) (c : fcert) : bool :=
  match bm_lookup (f_origin c) (ft_targets f) with
  | Some t => if f_round c <=? t then false
              else match cs_last_number (f_origin c) (fe_store e) with Some l => l <? f_round c | None => true end
  | None => match cs_last_number (f_origin c) (fe_store e) with Some l => l <? f_round c | None => true end
  end.
Inductive fetch_ev := EAncestors (c : fcert) | EKick | EDone.
Definition no_task (f : fetcher) : bool := match ft_task f with None => true | Some _ => false end.
Definition no_targets (f : fetcher) : bool := match ft_targets f with [] => true | _ => false end.
(** 172-213 [handle_command], 237-251 [handle_fetch_completion]; polling a finished task clears it (640-660) *)
Definition fetch_step (f : fetcher) (ee : fenv * fetch_ev) : fetcher :=
  let (e, ev) := ee in
  match ev with
  | EKick => if no_task f && negb (no_targets f) then start_fetch e f else f
  | EAncestors c =>
    if negb (f_epoch c =? epoch) then f
    else if negb (should_fetch e f c) then f
    else let f1 := mkF (bm_insert (f_origin c) (f_round c) (ft_targets f)) (ft_task f) in
         if no_task f1 then start_fetch e f1 else f1
  | EDone => match ft_task f with
             | None => f
             | Some _ => let f1 := mkF (ft_targets f) None in
                         if negb (no_targets f1) then start_fetch e f1 else f1
             end
  end.
Definition fetch_run (evs : list (fenv * fetch_ev)) : fetcher := fold_left fetch_step evs (mkF [] None).
End Fetcher.
