(* What the properties of the peer manager talk about. *)
From Verif Require Import Util AMap PeersModel CacheModel MgrModel.
Local Open Scope N_scope.

(* The clock over a history of calls. *)
Definition at_time (e : mev) : option N :=
  match e with
  | MTrusted now _ _ | MPenalty now _ _ | MDisconnect now _ _ | MPendingOut now _ | MEstablished now _ _ _
  | MClosed now _ _ | MDialFailure now _ | MCommittees now _ _ _ | MPrepare now _ | MKnown now _ _
  | MRestored now _ _ | MBootstrap now _ _ | MKad now _ _ | MSelfAdv now _ _ _ | MHeartbeat now _ _ _ _
  | MPoll now => Some now
  | MDial _ _ | MExchange _ _ | MDiscovered _ | MFind _ | MRpcs | MReorder _ => None
  end.
Fixpoint forward_from (t : N) (l : list mev) : Prop :=
  match l with
  | [] => True
  | e :: r => match at_time e with
              | Some now => t <= now /\ forward_from now r
              | None => forward_from t r
              end
  end.
Definition forward (l : list mev) : Prop := forward_from 0 l.

(* Is p on the gossip blacklist once the queued events have been delivered?  The last word counts. *)
Fixpoint last_word (p : pid) (listed : bool) (l : list pevent) : bool :=
  match l with
  | [] => listed
  | PBanned q :: t => last_word p (if N.eqb q p then true else listed) t
  | PUnbanned q :: t => last_word p (if N.eqb q p then false else listed) t
  | _ :: t => last_word p listed t
  end.
Definition blacklisted (m : mgr) (p : pid) : bool := last_word p (memN p (m_black m)) (m_events m).

(* A call that lifts a member's temporary ban finds that member either not blacklisted or recorded as
   Banned under its key. *)
Definition lifts_clean (m : mgr) (k : bls) : Prop :=
  forall i, get N.eqb k (m_known m) = Some i -> blacklisted m (i_key i) = true ->
  exists r t, rec_of (Confirmed k) (m_store m) = Some r /\ p_net r = Some (i_key i) /\ p_status r = Banned t.
Definition clean_call (m : mgr) (e : mev) : Prop :=
  match e with
  | MTrusted _ _ i => blacklisted m (i_key i) = false
  | MCommittees _ a b d => forall k, In k (a ++ b ++ d) -> lifts_clean m k
  | MPrepare _ l => forall k, In k l -> lifts_clean m k
  | _ => True
  end.
Fixpoint clean_run (g : mcfg) (m : mgr) (l : list mev) : Prop :=
  match l with
  | [] => True
  | e :: t => clean_call m e /\ clean_run g (mstep g m e) t
  end.
