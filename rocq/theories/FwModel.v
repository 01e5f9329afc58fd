(** Model of transaction forwarding by a node outside the committee.
    Sources: crates/tn-reth/src/forward.rs (line numbers below are of this file unless another is named),
    crates/consensus/worker/src/worker.rs 246-290 (disburse_txns), crates/batch-builder/src/lib.rs 225-280, 315-475 (what the
    builder does with the answer; the refusal backoff).
    Simplifications: a validator's key and an endpoint's URL are numbers; the host of a URL and whether the URL parses are
    functions of the URL; a signed transaction is an identifier and the first eight bytes of its recovered sender (none: the
    bytes do not recover); time is in milliseconds, the pool's own work takes none; logs and metrics are left out except the
    tallies. The answer of an endpoint to one send and the time it takes are arbitrary. *)
From Verif Require Import Util.
From Coq Require Import String Ascii.
Import List ListNotations.
Local Open Scope N_scope.

(** ---------- which hosts may be dialled (280-381) ---------- *)
Inductive fhost := H4 (a b c d : N) | H6 (segs : list N) | HName (name : string).
Inductive refusal := MissingHost | Loopback | PrivateUse | LinkLocal | UniqueLocal | SharedAddressSpace | Unspecified | NotUnicast.

(** 289-310; std's Ipv4Addr::is_loopback, is_private, is_link_local *)
Definition check_v4 (a b c d : N) : option refusal :=
  if a =? 127 then Some Loopback
  else if (a =? 10) || ((a =? 172) && ((16 <=? b) && (b <=? 31))) || ((a =? 192) && (b =? 168)) then Some PrivateUse
  else if (a =? 169) && (b =? 254) then Some LinkLocal
  else if a =? 0 then Some Unspecified
  else if (a =? 100) && ((64 <=? b) && (b <? 128)) then Some SharedAddressSpace
  else if 224 <=? a then Some NotUnicast
  else None.
(** 362-366 *)
Definition v4_of_segs (hi lo : N) : N * N * N * N := (hi / 256, hi mod 256, lo / 256, lo mod 256).
(** 352-359; std's to_ipv4: the first six segments 0,0,0,0,0 and 0 or ffff *)
Definition embedded_v4 (s : list N) : option (N * N * N * N) :=
  match s with
  | [s1; s2; s3; s4; s5; s6; s7; s8] =>
    if (s1 =? 0) && (s2 =? 0) && (s3 =? 0) && (s4 =? 0) && (s5 =? 0) && ((s6 =? 0) || (s6 =? 65535)) then Some (v4_of_segs s7 s8)
    else if (s1 =? 100) && (s2 =? 65435) && (s3 =? 0) && (s4 =? 0) && (s5 =? 0) && (s6 =? 0) then Some (v4_of_segs s7 s8)
    else if s1 =? 8194 then Some (v4_of_segs s2 s3)
    else None
  | _ => None
  end.
(** 317-335 *)
Definition check_v6 (s : list N) : option refusal :=
  match s with
  | [s1; s2; s3; s4; s5; s6; s7; s8] =>
    let z := (s1 =? 0) && (s2 =? 0) && (s3 =? 0) && (s4 =? 0) && (s5 =? 0) && (s6 =? 0) && (s7 =? 0) in
    if z && (s8 =? 1) then Some Loopback
    else if z && (s8 =? 0) then Some Unspecified
    else if N.land s1 65024 =? 64512 then Some UniqueLocal
    else if N.land s1 65472 =? 65152 then Some LinkLocal
    else if N.land s1 65280 =? 65280 then Some NotUnicast
    else match embedded_v4 s with Some (a, b, c, d) => check_v4 a b c d | None => None end
  | _ => Some MissingHost
  end.
(** str::to_ascii_lowercase *)
Definition lower_char (a : ascii) : ascii :=
  let n := N_of_ascii a in if (65 <=? n) && (n <=? 90) then ascii_of_N (n + 32) else a.
Fixpoint lower (s : string) : string :=
  match s with EmptyString => EmptyString | String a t => String (lower_char a) (lower t) end.
(** str::trim_end_matches('.') *)
Fixpoint trim_dots (s : string) : string :=
  match s with
  | EmptyString => EmptyString
  | String a t => match trim_dots t with
                  | EmptyString => if Ascii.eqb a "."%char then EmptyString else String a EmptyString
                  | t' => String a t'
                  end
  end.
(** str::ends_with *)
Fixpoint ends_with (suffix s : string) : bool :=
  String.eqb suffix s || match s with EmptyString => false | String _ t => ends_with suffix t end.
(** 371-383 *)
Definition check_name (name : string) : option refusal :=
  let n := lower (trim_dots name) in
  if String.eqb n "localhost" || ends_with ".localhost" n then Some Loopback
  else if String.eqb n "local" || ends_with ".local" n then Some LinkLocal
  else None.
(** 280-286 *)
Definition check_host (h : option fhost) : option refusal :=
  match h with
  | None => Some MissingHost
  | Some (H4 a b c d) => check_v4 a b c d
  | Some (H6 s) => check_v6 s
  | Some (HName n) => check_name n
  end.

(** ---------- what an endpoint's answer means (1192-1240) ---------- *)
Inductive disp := Delivered | Rejected (reason : string) | TryNext | Unreachable.
Inductive reply :=
| ROk                                  (* a transaction hash *)
| RErrorResp (code : Z) (msg : string)
| RLocal                               (* SerError, LocalUsageError *)
| RNoVerdict.                          (* Transport, DeserError, NullResp, UnsupportedFeature *)
Fixpoint prefix_of (p s : string) : bool :=
  match p, s with
  | EmptyString, _ => true
  | String a p', String b s' => Ascii.eqb a b && prefix_of p' s'
  | _, _ => false
  end.
Fixpoint contains (needle s : string) : bool :=
  prefix_of needle s || match s with EmptyString => false | String _ t => contains needle t end.
Definition NODE_LOCAL : list string :=
  ["transaction underpriced"%string; "replacement transaction underpriced"%string;
   "exceeds the configured cap"%string; "address already reserved"%string].
(** the reason is kept without its "code N: " prefix *)
Definition classify_server (code : Z) (msg : string) : disp :=
  let l := lower msg in
  if (code =? -32003)%Z || (code =? -32603)%Z then TryNext
  else if contains "already known" l then Delivered
  else if (code =? -32000)%Z && existsb (fun n => contains n l) NODE_LOCAL then TryNext
  else Rejected msg.
Definition classify (r : reply) : disp :=
  match r with
  | ROk => Delivered
  | RErrorResp c m => classify_server c m
  | RLocal => TryNext
  | RNoVerdict => Unreachable
  end.

(** ---------- one transaction across the validators (956-1090) ---------- *)
Definition SEND_TIMEOUT : N := 5000.
Definition TX_BUDGET : N := 15000.
Definition BATCH_BUDGET : N := 120000.
Definition COOLDOWN : N := 30000.
Definition GRACE : N := 1000.
Definition MAX_FORWARDS : nat := 64.

(** one completed send *)
Record dial := mkDial { d_key : N; d_url : N; d_at : N; d_disp : disp }.
(** [w_held] is the fold's accumulator and the slot [held], always set together (1030-1033);
    [w_un] the task's set of unreachable endpoints; [w_demo], [w_lift] what it did to the shared map; [w_dials] the history *)
Record wst := mkW { w_t : N; w_tried : list N; w_held : option string; w_un : list N;
                    w_demo : list (N * N); w_lift : list N; w_dials : list dial }.
Inductive outcome := ODelivered | ORejected (reason : string) | ONone.
Inductive wres := WDone (o : outcome) | WCut (key : N).

Section Walk.
Variable env : N -> reply * N.      (* per validator: its answer to this transaction, and the time it takes *)
Variable prov : bmap N.             (* the usable endpoints: key -> URL *)
Variable lim : N.                   (* when the budget ends *)
Fixpoint walk (ord : list N) (s : wst) : wres * wst :=
  match ord with
  | [] => (WDone (match w_held s with Some r => ORejected r | None => ONone end), s)
  | k :: rest =>
    if memN k (w_tried s) then walk rest s
    else
      let s := mkW (w_t s) (k :: w_tried s) (w_held s) (w_un s) (w_demo s) (w_lift s) (w_dials s) in
      match bm_lookup k prov with
      | None => walk rest s
      | Some u =>
        if memN u (w_un s) then walk rest s
        else
          let (r, d) := env k in
          let t' := w_t s + N.min d SEND_TIMEOUT in
          if lim <? t' then (WCut k, s)
          else
            let dp := if SEND_TIMEOUT <? d then Unreachable else classify r in
            let ds := w_dials s ++ [mkDial k u (w_t s) dp] in
            match dp with
            | Delivered =>
                if memN u (w_un s)
                then (WDone ODelivered, mkW t' (w_tried s) (w_held s) (filter (fun x => negb (x =? u)) (w_un s)) (w_demo s) (u :: w_lift s) ds)
                else (WDone ODelivered, mkW t' (w_tried s) (w_held s) (w_un s) (w_demo s) (w_lift s) ds)
            | Rejected why =>
                match w_held s with
                | Some _ => (WDone (ORejected why), mkW t' (w_tried s) (w_held s) (w_un s) (w_demo s) (w_lift s) ds)
                | None => walk rest (mkW t' (w_tried s) (Some why) (w_un s) (w_demo s) (w_lift s) ds)
                end
            | TryNext => walk rest (mkW t' (w_tried s) (w_held s) (w_un s) (w_demo s) (w_lift s) ds)
            | Unreachable =>
                walk rest (mkW t' (w_tried s) (w_held s)
                               (if memN u (w_un s) then w_un s else u :: w_un s)
                               (if memN u (w_un s) then w_demo s else w_demo s ++ [(u, t')]) (w_lift s) ds)
            end
      end
  end.
End Walk.

(** ---------- one batch (540-765) ---------- *)
Record ftx := mkTx { x_id : N; x_sender : option N }.
(** 912-923 [owning_validator] *)
Definition owner_of (slots : list N) (x : ftx) : option N :=
  match x_sender x with
  | None => None
  | Some v => nth_error slots (N.to_nat (v mod N.of_nat (length slots)))
  end.
(** 899-906 [rotation_start], 890-894 [rotated_fallbacks] *)
Definition rotation_start (counter : N) (n : nat) : nat :=
  if Nat.eqb n 0 then 0%nat else N.to_nat (counter mod N.of_nat n).
Definition rotated (l : list N) (counter : N) : list N :=
  let start := rotation_start counter (length l) in skipn start l ++ firstn start l.
(** 872-875 [next_txn_budget] *)
Definition next_budget (deadline now : N) : option N :=
  if deadline - now =? 0 then None else Some (N.min (deadline - now) TX_BUDGET).

(** what became of a transaction: [FBack acc] it was offered to the worker's own pool, which took it or not *)
Inductive fate := FDelivered | FRejected (reason : string) | FBack (acc : bool).
Record tres := mkTR { t_tx : ftx; t_fate : fate; t_dials : list dial; t_start : N; t_end : N;
                      t_cut : option N; t_back : N (* when it was offered back; 0 if it was not *) }.
Record tally := mkTally { y_delivered : nat; y_rejected : nat; y_unreached : nat; y_noverdict : nat; y_requeued : nat }.
Record task := mkTask { k_t : N; k_un : list N; k_demo : list (N * N); k_lift : list N; k_res : list tres; k_tally : tally }.

Section Batch.
Variable env : nat -> N -> reply * N.   (* per transaction and validator *)
Variable pool : option (nat -> bool).   (* the worker's pool, and whether it accepts the transaction back *)
Variable slots fallbacks : list N.
Variable prov : bmap N.
Variables deadline ready : N.
(** 778-791 [requeue_one] *)
Definition requeue_one (i : nat) (x : ftx) : bool :=
  match pool with Some p => match x_sender x with Some _ => p i | None => false end | None => false end.
Definition b2n (b : bool) : nat := if b then 1%nat else 0%nat.
(** 592-690: the loop body *)
Definition one_tx (i : nat) (x : ftx) (budget : N) (k : task) : task :=
  let ord := match owner_of slots x with Some o => o :: fallbacks | None => fallbacks end in
  let lim := k_t k + budget in
  let (r, s) := walk (env i) prov lim ord (mkW (k_t k) [] None (k_un k) [] [] []) in
  let expired := match r with WCut _ => true | WDone _ => false end in
  let cut := match r with WCut c => Some c | WDone _ => None end in
  let out := match r with WDone o => o | WCut _ => match w_held s with Some why => ORejected why | None => ONone end end in
  let t := if expired then lim else w_t s in
  let y := k_tally k in
  match out with
  | ODelivered =>
      mkTask t (w_un s) (k_demo k ++ w_demo s) (w_lift s ++ k_lift k)
             (k_res k ++ [mkTR x FDelivered (w_dials s) (k_t k) t cut 0])
             (mkTally (S (y_delivered y)) (y_rejected y) (y_unreached y) (y_noverdict y) (y_requeued y))
  | ORejected why =>
      mkTask t (w_un s) (k_demo k ++ w_demo s) (w_lift s ++ k_lift k)
             (k_res k ++ [mkTR x (FRejected why) (w_dials s) (k_t k) t cut 0])
             (mkTally (y_delivered y) (S (y_rejected y)) (y_unreached y) (y_noverdict y) (y_requeued y))
  | ONone =>
      let acc := requeue_one i x in
      let t2 := N.max t ready in
      mkTask t2 (w_un s) (k_demo k ++ w_demo s) (w_lift s ++ k_lift k)
             (k_res k ++ [mkTR x (FBack acc) (w_dials s) (k_t k) t cut t2])
             (mkTally (y_delivered y) (y_rejected y)
                      (if expired && (budget <? TX_BUDGET) then y_unreached y else S (y_unreached y))
                      (S (y_noverdict y)) (y_requeued y + b2n acc))
  end.
(** 752-757: the tail the deadline cut off *)
Fixpoint tail_back (i : nat) (txs : list ftx) (k : task) : task :=
  match txs with
  | [] => k
  | x :: rest =>
    let t2 := N.max (k_t k) ready in
    let acc := requeue_one i x in
    let y := k_tally k in
    tail_back (S i) rest
      (mkTask t2 (k_un k) (k_demo k) (k_lift k) (k_res k ++ [mkTR x (FBack acc) [] (k_t k) (k_t k) None t2])
              (mkTally (y_delivered y) (y_rejected y) (y_unreached y) (S (y_noverdict y)) (y_requeued y + b2n acc)))
  end.
Fixpoint batch_loop (i : nat) (txs : list ftx) (k : task) : task :=
  match txs with
  | [] => k
  | x :: rest =>
    match next_budget deadline (k_t k) with
    | None => tail_back i txs k
    | Some b => batch_loop (S i) rest (one_tx i x b k)
    end
  end.
End Batch.
(** 553-765 the spawned task, started at [now] *)
Definition run_task (env : nat -> N -> reply * N) (pool : option (nat -> bool)) (slots fallbacks : list N) (prov : bmap N)
    (now : N) (txs : list ftx) : task :=
  batch_loop env pool slots fallbacks prov (now + BATCH_BUDGET) (now + GRACE) 0 txs
    (mkTask now [] [] [] [] (mkTally 0 0 0 0 0)).
(** 711-714 *)
Definition abandoned (txs : list ftx) (y : tally) : nat := (length txs - (y_delivered y + y_rejected y + y_unreached y))%nat.

(** ---------- the forwarder (386-530, 794-866) ---------- *)
Record fcache := mkC { fc_prov : list N; fc_refused : list N; fc_un : list (N * N) }.
Record fnode := mkN { n_cache : fcache; n_live : nat; n_rot : N }.
Record admitted := mkAd { a_now : N; a_prov : bmap N; a_fallbacks : list N; a_slots : list N; a_txs : list ftx }.

Section Forwarder.
Variable private_ok : bool.              (* ForwardTargetPolicy::AllowPrivate *)
Variable host_of : N -> option fhost.    (* the URL's host *)
Variable parses : N -> bool.             (* whether alloy's URL type takes it *)
(** 462-524: one advertisement *)
Definition resolve (acc : bmap N * fcache) (e : N * N) : bmap N * fcache :=
  let (m, c) := acc in
  let (k, u) := e in
  if memN u (map fst (fc_un c)) then acc
  else if memN u (fc_prov c) then (bm_insert k u m, c)
  else match (if private_ok then None else check_host (host_of u)) with
       | Some _ => (m, mkC (fc_prov c) (if memN u (fc_refused c) then fc_refused c else u :: fc_refused c) (fc_un c))
       | None => if parses u then (bm_insert k u m, mkC (u :: fc_prov c) (fc_refused c) (fc_un c)) else acc
       end.
(** 452-524 [cached_providers] *)
Definition cached_providers (now : N) (rpcs : list (N * N)) (c : fcache) : bmap N * fcache :=
  let adv := map snd rpcs in
  let c := mkC (filter (fun u => memN u adv) (fc_prov c)) (filter (fun u => memN u adv) (fc_refused c))
               (filter (fun e => memN (fst e) adv && (now - snd e <? COOLDOWN)) (fc_un c)) in
  fold_left resolve rpcs ([], c).
(** 794-866 [forward_txns] *)
Definition forward_txns (now : N) (txs : list ftx) (slots : list N) (rpcs : list (N * N)) (s : fnode) : option admitted * fnode :=
  let targets_known := (0 <? N.of_nat (length slots)) && (0 <? N.of_nat (length rpcs)) in
  if (0 <? N.of_nat (length txs)) && targets_known then
    let (m, c) := cached_providers now rpcs (n_cache s) in
    match m with
    | [] => (None, mkN c (n_live s) (n_rot s))
    | _ => if Nat.ltb (n_live s) MAX_FORWARDS
           then (Some (mkAd now m (rotated (bm_keys m) (n_rot s)) slots txs),
                 mkN c (S (n_live s)) ((n_rot s + 1) mod 18446744073709551616))
           else (None, mkN c (n_live s) (n_rot s))
    end
  else (None, s).
(** what happens to the forwarder: batches, what the tasks report about endpoints, tasks that end or are aborted *)
Inductive fev := FForward (now : N) (txs : list ftx) (slots : list N) (rpcs : list (N * N))
               | FDemote (u now : N) | FLift (u : N) | FDone.
Definition un_insert (u t : N) (l : list (N * N)) : list (N * N) := (u, t) :: filter (fun e => negb (fst e =? u)) l.
Definition fstep (a : list admitted * fnode) (e : fev) : list admitted * fnode :=
  let (l, s) := a in
  match e with
  | FForward now txs slots rpcs =>
      let (r, s') := forward_txns now txs slots rpcs s in
      (match r with Some ad => l ++ [ad] | None => l end, s')
  | FDemote u now => (l, mkN (mkC (fc_prov (n_cache s)) (fc_refused (n_cache s)) (un_insert u now (fc_un (n_cache s)))) (n_live s) (n_rot s))
  | FLift u => (l, mkN (mkC (fc_prov (n_cache s)) (fc_refused (n_cache s)) (filter (fun e => negb (fst e =? u)) (fc_un (n_cache s)))) (n_live s) (n_rot s))
  | FDone => (l, mkN (n_cache s) (Nat.pred (n_live s)) (n_rot s))
  end.
Definition frun (rot : N) (evs : list fev) : list admitted * fnode := fold_left fstep evs ([], mkN (mkC [] [] []) 0 rot).

(** worker.rs 246-290 [disburse_txns]; [None]: the discovery failed *)
Definition disburse (now : N) (txs : list ftx) (slots : list N) (found : option (list (N * N))) (s : fnode) : bool * option admitted * fnode :=
  match txs with
  | [] => (true, None, s)
  | _ => match found with
         | None | Some [] => (false, None, s)
         | Some rpcs => let (r, s') := forward_txns now txs slots rpcs s in
                        (match r with Some _ => true | None => false end, r, s')
         end
  end.
End Forwarder.

(** ---------- the builder's pool (batch-builder lib.rs 237-270, 425-475) ---------- *)
(** pruned only when the seal was acknowledged; offered back by the task at the times it recorded *)
Definition prune (txs : list ftx) (p : list N) : list N := filter (fun i => negb (memN i (map x_id txs))) p.
(** the events on the pool after an admitted batch: additions by the task before the prune, the prune, additions after it *)
Definition backs (k : task) : list (N * N) :=
  flat_map (fun r => match t_fate r with FBack true => [(t_back r, x_id (t_tx r))] | _ => [] end) (k_res k).
Definition pool_after (pruned_at : N) (txs : list ftx) (k : task) (p : list N) : list N :=
  let early := map snd (filter (fun e => fst e <? pruned_at) (backs k)) in
  let late := map snd (filter (fun e => negb (fst e <? pruned_at)) (backs k)) in
  prune txs (p ++ early) ++ late.

(** the task aborted at [at_]: only what was offered back by then counts (tn-types task_manager aborts spawned tasks at the
    epoch boundary; forward.rs 571-575) *)
Definition pool_after_abort (at_ pruned_at : N) (txs : list ftx) (k : task) (p : list N) : list N :=
  let done := filter (fun e => fst e <=? at_) (backs k) in
  prune txs (p ++ map snd (filter (fun e => fst e <? pruned_at) done)) ++ map snd (filter (fun e => negb (fst e <? pruned_at)) done).

(** ---------- the refusal backoff (batch-builder lib.rs 312-375) ---------- *)
Record backoff := mkBO { bo_until : N; bo_delay : N; bo_refusals : N }.
Definition REFUSAL_CAP : N := 30000.
Definition note_refusal (period now : N) (b : option backoff) : backoff :=
  let fresh := mkBO (now + period) period 1 in
  match b with
  | Some p => if now - bo_until p <=? REFUSAL_CAP
              then let d := N.min (bo_delay p * 2) REFUSAL_CAP in mkBO (now + d) d (N.min (bo_refusals p + 1) 4294967295)
              else fresh
  | None => fresh
  end.
Definition backoff_holds (now : N) (b : option backoff) : bool :=
  match b with Some p => now <? bo_until p | None => false end.
Inductive build_out := BMined (n : nat) | BRefused | BFailed.
Definition after_build (period now : N) (o : build_out) (b : option backoff) : option backoff :=
  match o with
  | BRefused => Some (note_refusal period now b)
  | BMined (S _) => None
  | BMined 0 | BFailed => b
  end.
