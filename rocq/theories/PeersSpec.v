(* What the properties of the peer store talk about, without its transition functions: records by
   identity, how many records are in a given state, which histories are considered. *)
From Verif Require Import Util AMap PeersModel.
Local Open Scope N_scope.

(* How many records satisfy f, and how many banned records were seen on address x. *)
Definition how_many (f : peer -> bool) (s : store) : nat :=
  length (filter (fun e => f (snd e)) (peers s)).
Definition in_disconnected (r : peer) : bool := is_disc (p_status r).
Definition in_banned (r : peer) : bool := is_banned_st (p_status r).
Definition banned_seen_at (x : ipaddr) (r : peer) : bool := in_banned r && memN x (p_ips r).

(* A history in which the node is never asked to disconnect a peer whose record is already Banned. *)
Definition asks_ok (s : store) (e : ev) : Prop :=
  match e with
  | EDisconnect _ p => match get_peer s p with Some r => in_banned r = false | None => True end
  | _ => True
  end.
Fixpoint orderly (c : cfg) (s : store) (l : list ev) : Prop :=
  match l with
  | [] => True
  | e :: t => asks_ok s e /\ orderly c (step c s e) t
  end.
(* Events that forgive committee members. *)
Definition forgives (e : ev) : bool :=
  match e with EMember _ _ | ECommittees _ _ _ _ | EMark _ _ => true | _ => false end.

(* Addresses seen on connections in a history. *)
Definition seen_on (l : list ev) (x : ipaddr) : Prop :=
  exists now p a inc, In (EConnect now p a inc) l /\ a_ip a = Some x.
