(** The gateway's rate limiter (C66): bin/worker-gateway/src/ratelimit.rs 73-145, 226-478.

    Tokens are f64 in the code; here they are exact, in billionths, and times are nanoseconds, so that a nanosecond refills [rate]
    units.  The clock is read once per request, before the locks are taken; a request is one step here although it takes the
    global and the table's lock one after the other.  The caller is told only whether a request is refused; the outcome here also
    says by which limiter.  A request for a health or readiness path does not get here (496-503).  IPv4 and IPv6 addresses are numbers. *)
From Verif Require Import Util.
Local Open Scope N_scope.

Definition NS : N := 1000000000.
Record limit := { rate : N; burst : N }.                               (* 76-79; both are not zero *)
Definition capacity (l : limit) : N := burst l * NS.
(* 110-144; the subtraction of N is saturating_duration_since *)
Record bucket := { tok : N; at_ : N }.
Definition full (now : N) (l : limit) : bucket := {| tok := capacity l; at_ := now |}.
Definition replenished (b : bucket) (now : N) (l : limit) : N := N.min (tok b + (now - at_ b) * rate l) (capacity l).
Definition try_admit (b : bucket) (now : N) (l : limit) : bucket * bool :=
  let t := replenished b now l in
  if NS <=? t then ({| tok := t - NS; at_ := now |}, true) else ({| tok := t; at_ := now |}, false).
Definition is_idle (b : bucket) (now : N) (l : limit) : bool := capacity l <=? replenished b now l.

(* 226-305 *)
Inductive addr := V4 (n : N) | V6 (n : N).
Definition addr_eqb (a b : addr) : bool :=
  match a, b with V4 x, V4 y => x =? y | V6 x, V6 y => x =? y | _, _ => false end.
Definition mask (width prefix n : N) : N :=
  let host := width - prefix in
  let m := if host <? width then N.shiftl (2 ^ width - 1) host mod 2 ^ width else 0 in   (* checked_shl *)
  N.land n m.
Definition to_ipv4_mapped (n : N) : option N := if n / 2 ^ 32 =? 65535 then Some (n mod 2 ^ 32) else None.
Record conf := { c_global : option limit; c_client : option limit; c_max : N; c_v4 : N; c_v6 : N }.
Definition key (cf : conf) (a : addr) : addr :=
  match a with
  | V4 n => V4 (mask 32 (c_v4 cf) n)
  | V6 n => match to_ipv4_mapped n with Some m => V4 (mask 32 (c_v4 cf) m) | None => V6 (mask 128 (c_v6 cf) n) end
  end.

(* 307-365 *)
Definition table := list (addr * bucket).
Definition find (t : table) (k : addr) : option bucket := option_map snd (List.find (fun p => addr_eqb (fst p) k) t).
Definition put (t : table) (k : addr) (b : bucket) : table := map (fun p => if addr_eqb (fst p) k then (k, b) else p) t.
Definition client_admit (l : limit) (max now : N) (k : addr) (t : table) : table * bool :=
  match find t k with
  | Some b => let '(b', ok) := try_admit b now l in (put t k b', ok)
  | None =>
    if N.of_nat (length t) <? max
    then let '(b', ok) := try_admit (full now l) now l in ((k, b') :: t, ok)
    else (t, true)
  end.

(* 367-455 *)
Record state := { g : bucket; tbl : table }.
Inductive outcome := Passed | RefusedGlobal | RefusedClient.
Definition start (cf : conf) (now : N) : state :=
  {| g := match c_global cf with Some l => full now l | None => {| tok := 0; at_ := now |} end; tbl := [] |}.
Definition check (cf : conf) (st : state) (now : N) (peer : option addr) : state * outcome :=
  let '(g', gok) := match c_global cf with Some l => try_admit (g st) now l | None => (g st, true) end in
  if gok then
    match c_client cf, peer with
    | Some l, Some a =>
      let '(t', ok) := client_admit l (N.max (c_max cf) 1) now (key cf a) (tbl st) in
      ({| g := g'; tbl := t' |}, if ok then Passed else RefusedClient)
    | _, _ => ({| g := g'; tbl := tbl st |}, Passed)
    end
  else ({| g := g'; tbl := tbl st |}, RefusedGlobal).
Definition gc (cf : conf) (st : state) (now : N) : state :=
  match c_client cf with
  | Some l => {| g := g st; tbl := filter (fun p => negb (is_idle (snd p) now l)) (tbl st) |}
  | None => st
  end.

Inductive event := Request (now : N) (peer : option addr) | Sweep (now : N).
Definition time (e : event) : N := match e with Request t _ => t | Sweep t => t end.
(** what was asked, and what was answered *)
Record entry := { e_time : N; e_peer : option addr; e_out : outcome }.
Definition step (cf : conf) (st : state) (e : event) : state * list entry :=
  match e with
  | Request t p => let '(st', o) := check cf st t p in (st', [{| e_time := t; e_peer := p; e_out := o |}])
  | Sweep t => (gc cf st t, [])
  end.
Fixpoint run (cf : conf) (st : state) (es : list event) : state * list entry :=
  match es with
  | [] => (st, [])
  | e :: t => let '(st', l) := step cf st e in let '(st'', l') := run cf st' t in (st'', l ++ l')
  end.
Definition history (cf : conf) (t0 : N) (es : list event) : list entry := snd (run cf (start cf t0) es).
