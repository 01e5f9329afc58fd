(* C57: execution extensions (ExExes): fan-out of notifications, replay, catch-up, finished heights, source merge.
   Models crates/exex/src/manager.rs, replay.rs, context.rs at the pinned commit. Certificates, outputs are opaque numbers; a
   Chain is the ascending list of its block numbers (contents are carried along unchanged by the code). *)
From Verif Require Import Util.
Require Import Lia List NArith Bool. Import ListNotations.
Local Open Scope N_scope.

Definition U64 : N := 2 ^ 64 - 1.
Definition sat_add1 (n : N) : N := N.min (n + 1) U64.

(* notification.rs: TnExExNotification *)
Inductive note := NCert (c : N) | NOut (o : N) | NChain (seg : list N) | NLag (missed : N).

Definition seg_first (s : list N) : N := hd 0 s.
Definition seg_tip (s : list N) : N := last s 0.

(* manager.rs 41-54 with the receiving side of both channels: h_q the notification channel, h_cap its capacity, h_open the
   receiver exists; h_ev the event channel (heights) *)
Record hnd := mk_hnd { h_q : list note; h_cap : nat; h_open : bool; h_drop : N; h_fin : option N; h_ev : list N; h_alive : bool }.
(* node.rs 63: capacity of an event channel *)
Definition EV_CAP : nat := 16.
(* manager.rs 492-498 *)
Definition resolve_cap (c : nat) : nat := if (c =? 0)%nat then 1%nat else c.
(* manager.rs 56-58, node.rs 788-801 *)
Definition hnd_new (c : nat) : hnd := mk_hnd [] (resolve_cap c) true 0 None [] true.

(* tokio mpsc try_send *)
Inductive sent := SOk | SFull | SClosed.
Definition try_send (h : hnd) (n : note) : sent * hnd :=
  if negb (h_open h) then (SClosed, h)
  else if (length (h_q h) <? h_cap h)%nat
       then (SOk, mk_hnd (h_q h ++ [n]) (h_cap h) (h_open h) (h_drop h) (h_fin h) (h_ev h) (h_alive h))
       else (SFull, h).
Definition set_drop (h : hnd) (d : N) : hnd := mk_hnd (h_q h) (h_cap h) (h_open h) d (h_fin h) (h_ev h) (h_alive h).

(* manager.rs 90-104 *)
Definition send_note (h : hnd) (n : note) : hnd :=
  match try_send h n with
  | (SOk, h') => h'
  | (SFull, h') => set_drop h' (sat_add1 (h_drop h'))
  | (SClosed, h') => h'
  end.
(* manager.rs 65-105 *)
Definition send (h : hnd) (n : note) : hnd :=
  if (0 <? h_drop h) then
    match try_send h (NLag (h_drop h)) with
    | (SOk, h') => send_note (set_drop h' 0) n
    | (SFull, h') => set_drop h' (sat_add1 (h_drop h'))
    | (SClosed, h') => h'
    end
  else send_note h n.

(* manager.rs 500-515 *)
Definition canon_gap (last_tip : option N) (first tip : N) : option N * option N :=
  (match last_tip with
   | Some prev => if (sat_add1 prev <? first) then Some (first - prev - 1) else None
   | None => None
   end,
   Some (match last_tip with Some p => N.max p tip | None => tip end)).

(* manager.rs 261-274: what the sources bring; IRes None m stands for a lagged broadcast *)
Inductive rin := ICert (r : N + N) | IOut (r : N + N) | ICommit (new : list N) | IReorg (old new : list N) | IClosed.

(* manager.rs 284-395: the notes fanned out for one input and the new tip; inl is Ok, inr m is Lagged m *)
Definition canon_commit (tip : option N) (new : list N) : list note * option N :=
  match new with
  | [] => ([], tip)
  | _ => let '(g, tip') := canon_gap tip (seg_first new) (seg_tip new) in
         (match g with Some m => [NLag m] | None => [] end ++ [NChain new], tip')
  end.
Definition route (tip : option N) (i : rin) : list note * option N :=
  match i with
  | ICert (inl c) => ([NCert c], tip)
  | ICert (inr m) => ([NLag m], tip)
  | IOut (inl o) => ([NOut o], tip)
  | IOut (inr m) => ([NLag m], tip)
  | ICommit new => canon_commit tip new
  | IReorg _ new => canon_commit tip new
  | IClosed => ([], tip)
  end.

(* manager.rs 316-321 *)
Definition fan_out (hs : list hnd) (n : note) : list hnd := map (fun h => send h n) hs.

(* manager.rs 411-443: None as soon as one ExEx has not reported, and for no ExEx at all *)
Fixpoint min_fold (acc : option N) (hs : list hnd) : option (option N) :=
  match hs with
  | [] => Some acc
  | h :: r => match h_fin h with
              | None => None
              | Some x => min_fold (Some (match acc with Some a => N.min a x | None => x end)) r
              end
  end.
Definition recompute_min (hs : list hnd) : option N := match min_fold None hs with Some m => m | None => None end.

(* the manager and its ExExes: x_run the fold has not ended (manager.rs 206-216) *)
Record xsys := mk_xsys { x_hs : list hnd; x_min : option N; x_tip : option N; x_run : bool }.
Definition xsys_new (caps : list nat) : xsys := mk_xsys (map hnd_new caps) None None true.

(* XIn: the manager takes an item of a source; XEvent i: it takes an event of ExEx i; XRecv i: ExEx i takes its next
   notification (context.rs 123-125); XReport i h: it reports a height (context.rs 111-113); XDie i: its future ends or panics
   and drops the context (exex.rs 17-38) *)
Inductive xev := XIn (i : rin) | XEvent (i : nat) | XRecv (i : nat) | XReport (i : nat) (h : N) | XDie (i : nat).

Fixpoint upd {A} (l : list A) (i : nat) (f : A -> A) : list A :=
  match l, i with [], _ => [] | a :: r, O => f a :: r | a :: r, S j => a :: upd r j f end.

Definition recv_h (h : hnd) : hnd := mk_hnd (tl (h_q h)) (h_cap h) (h_open h) (h_drop h) (h_fin h) (h_ev h) (h_alive h).
(* context.rs 111-113: try_send, dropped when the channel is full *)
Definition report_h (x : N) (h : hnd) : hnd :=
  if h_alive h && (length (h_ev h) <? EV_CAP)%nat
  then mk_hnd (h_q h) (h_cap h) (h_open h) (h_drop h) (h_fin h) (h_ev h ++ [x]) (h_alive h) else h.
(* manager.rs 398-408 *)
Definition take_event (h : hnd) : hnd :=
  match h_ev h with
  | [] => h
  | x :: r => mk_hnd (h_q h) (h_cap h) (h_open h) (h_drop h) (Some x) r (h_alive h)
  end.
Definition die_h (h : hnd) : hnd := mk_hnd [] (h_cap h) false (h_drop h) (h_fin h) (h_ev h) false.

(* one step; the output is what ExEx i received *)
Definition xstep (s : xsys) (e : xev) : list (nat * note) * xsys :=
  match e with
  | XIn i =>
    if negb (x_run s) then ([], s)
    else match i with
         | IClosed => ([], mk_xsys (x_hs s) (x_min s) (x_tip s) false)
         | _ => let '(ns, tip') := route (x_tip s) i in
                ([], mk_xsys (fold_left fan_out ns (x_hs s)) (x_min s) tip' (x_run s))
         end
  | XEvent i =>
    if negb (x_run s) then ([], s)
    else match nth_error (x_hs s) i with
         | Some h => match h_ev h with
                     | [] => ([], s)
                     | _ => let hs := upd (x_hs s) i take_event in ([], mk_xsys hs (recompute_min hs) (x_tip s) (x_run s))
                     end
         | None => ([], s)
         end
  | XRecv i =>
    match nth_error (x_hs s) i with
    | Some h => match h_open h, h_q h with
                | true, n :: _ => ([(i, n)], mk_xsys (upd (x_hs s) i recv_h) (x_min s) (x_tip s) (x_run s))
                | _, _ => ([], s)
                end
    | None => ([], s)
    end
  | XReport i x => ([], mk_xsys (upd (x_hs s) i (report_h x)) (x_min s) (x_tip s) (x_run s))
  | XDie i => ([], mk_xsys (upd (x_hs s) i die_h) (x_min s) (x_tip s) (x_run s))
  end.
Fixpoint xrun (s : xsys) (es : list xev) : list (nat * note) * xsys :=
  match es with
  | [] => ([], s)
  | e :: r => let '(o, s1) := xstep s e in let '(o2, s2) := xrun s1 r in (o ++ o2, s2)
  end.

(* ---------- replay.rs ---------- *)
Inductive rres := ROk (seg : list N) | RMissing | RErr.
Inductive item := IOk (n : note) | IErr (at_ : N).
Inductive cursor := Active (n : N) | Done.
(* replay.rs 96-137: one poll of a stream over [.., e]; None is end-of-stream *)
Definition rpoll (src : N -> rres) (e : N) (c : cursor) : option item * cursor :=
  match c with
  | Done => (None, Done)
  | Active n =>
    if e <? n then (None, Done)
    else match src n with
         | ROk seg => (Some (IOk (NChain seg)), if n =? e then Done else Active (sat_add1 n))
         | RMissing => (Some (IErr n), Done)
         | RErr => (Some (IErr n), Done)
         end
  end.
Fixpoint rpolls (src : N -> rres) (e : N) (c : cursor) (k : nat) : list (option item) :=
  match k with O => [] | S k' => let '(o, c') := rpoll src e c in o :: rpolls src e c' k' end.

(* context.rs 285-292 *)
Definition keep_height (last_height : option N) (h : N) : bool * option N :=
  match last_height with
  | Some prev => if h <=? prev then (false, last_height) else (true, Some h)
  | None => (true, Some h)
  end.
(* context.rs 297-330 *)
Fixpoint dedup (lh : option N) (l : list item) : list item :=
  match l with
  | [] => []
  | IOk (NChain seg) :: r =>
    match seg with
    | [] => dedup lh r
    | _ => let '(k, lh') := keep_height lh (seg_tip seg) in if k then IOk (NChain seg) :: dedup lh' r else dedup lh' r
    end
  | x :: r => x :: dedup lh r
  end.
(* context.rs 206-243: replay first (all its items: k polls are enough, end-of-streams removed), then what is received live;
   tip None: last_block_number failed *)
Definition somes {A} (l : list (option A)) : list A := flat_map (fun o => match o with Some a => [a] | None => [] end) l.
Definition replay_and_subscribe (src : N -> rres) (start : N) (tip : option N) (k : nat) (live : list note) : list item :=
  dedup None (match tip with Some t => somes (rpolls src t (Active start) k) | None => [IErr 0] end ++ map IOk live).

(* ---------- merge_sources: manager.rs 221-258 and futures select_with_strategy ---------- *)
Inductive src4 := SCert | SOut | SCanon | SEvents.
(* per poll, whether each source has an item; events may have ended for good (every ExEx gone) *)
Record ready := mk_ready { r_cert : bool; r_out : bool; r_canon : bool; r_ev : bool; r_evend : bool }.
(* PollNext of the outer, middle and inner merge (true: Right is polled first); mg_end: the inner merge saw events end *)
Record mg := mk_mg { mg_o : bool; mg_m : bool; mg_i : bool; mg_end : bool }.
Definition mg_new : mg := mk_mg false false false false.
Definition poll_inner (r : ready) (g : mg) : option src4 * mg :=
  let canon := if r_canon r then Some SCanon else None in
  if mg_end g then (canon, g)
  else
    let g' := mk_mg (mg_o g) (mg_m g) (negb (mg_i g)) (mg_end g) in
    let ended := mk_mg (mg_o g) (mg_m g) (negb (mg_i g)) true in
    if mg_i g
    then (if r_evend r then (canon, ended) else if r_ev r then (Some SEvents, g') else (canon, g'))
    else (if r_canon r then (canon, g') else if r_evend r then (None, ended) else if r_ev r then (Some SEvents, g') else (None, g')).
Definition poll_mid (r : ready) (g : mg) : option src4 * mg :=
  let g' := mk_mg (mg_o g) (negb (mg_m g)) (mg_i g) (mg_end g) in
  let out := if r_out r then Some SOut else None in
  if mg_m g
  then match poll_inner r g' with (Some x, g2) => (Some x, g2) | (None, g2) => (out, g2) end
  else if r_out r then (out, g') else poll_inner r g'.
Definition poll_outer (r : ready) (g : mg) : option src4 * mg :=
  let g' := mk_mg (negb (mg_o g)) (mg_m g) (mg_i g) (mg_end g) in
  let cert := if r_cert r then Some SCert else None in
  if mg_o g
  then match poll_mid r g' with (Some x, g2) => (Some x, g2) | (None, g2) => (cert, g2) end
  else if r_cert r then (cert, g') else poll_mid r g'.
Fixpoint polls (g : mg) (rs : list ready) : list (option src4) :=
  match rs with [] => [] | r :: t => let '(o, g') := poll_outer r g in o :: polls g' t end.
Definition is_ready (r : ready) (x : src4) : bool :=
  match x with SCert => r_cert r | SOut => r_out r | SCanon => r_canon r | SEvents => r_ev r && negb (r_evend r) end.
