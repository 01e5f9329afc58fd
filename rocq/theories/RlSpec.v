(** What a rate limit of [burst] requests and [rate] per second means (C66). *)
From Verif Require Import Util RlModel.
Local Open Scope N_scope.

(** the clock of the steps does not go back, and starts at [t0] *)
Fixpoint in_order (t0 : N) (es : list event) : Prop :=
  match es with [] => True | e :: t => t0 <= time e /\ in_order (time e) t end.
Definition limit_set (l : limit) : Prop := 1 <= rate l /\ 1 <= burst l.
Definition conf_ok (cf : conf) : Prop :=
  (forall l, c_global cf = Some l -> limit_set l) /\ (forall l, c_client cf = Some l -> limit_set l).

(** two addresses belong to one client: the same leading bits, an IPv4 address seen through IPv6 being that IPv4 address *)
Definition v4_of (a : addr) : option N :=
  match a with V4 n => Some n | V6 n => if n / 2 ^ 32 =? 65535 then Some (n mod 2 ^ 32) else None end.
Definition same_client (p4 p6 : N) (a b : addr) : Prop :=
  match v4_of a, v4_of b with
  | Some x, Some y => x / 2 ^ (32 - p4) = y / 2 ^ (32 - p4)
  | None, None => match a, b with V6 x, V6 y => x / 2 ^ (128 - p6) = y / 2 ^ (128 - p6) | _, _ => False end
  | _, _ => False
  end.
Definition addr_ok (a : addr) : Prop := match a with V4 n => n < 2 ^ 32 | V6 n => n < 2 ^ 128 end.

(** the requests of a stretch of the history that count against a limit *)
Definition count (f : entry -> bool) (w : list entry) : N := N.of_nat (length (filter f w)).
Definition passed_global (e : entry) : bool := match e_out e with RefusedGlobal => false | _ => true end.
Definition passed_client (cf : conf) (k : addr) (e : entry) : bool :=
  match e_out e, e_peer e with Passed, Some a => addr_eqb (key cf a) k | _, _ => false end.
(** one more request at [now] keeps to the limit, whatever stretch of the history before it is looked at *)
Definition spare (l : limit) (f : entry -> bool) (h : list entry) (now : N) : Prop :=
  forall pre x w, h = pre ++ x :: w ->
    NS * (count f (x :: w) + 1) <= burst l * NS + rate l * (now - e_time x).
(** no more than [c_max] clients ever *)
Definition few_clients (cf : conf) (es : list event) : Prop :=
  exists ks, N.of_nat (length ks) <= N.max (c_max cf) 1 /\
    forall t a, In (Request t (Some a)) es -> In (key cf a) ks.
Fixpoint requests (es : list event) : list event :=
  match es with [] => [] | Request t p :: r => Request t p :: requests r | Sweep _ :: r => requests r end.
