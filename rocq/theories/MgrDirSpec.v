(* What the properties of the known-peer directory talk about: read off the calls made so far. *)
From Verif Require Import Util AMap PeersModel CacheModel MgrModel.
Local Open Scope N_scope.

(* the keys the operator provisioned: trusted, explicit and bootstrap peers *)
Definition provisioned (l : list mev) : list bls :=
  flat_map (fun e => match e with MTrusted _ k _ | MKnown _ k _ | MBootstrap _ k _ => [k] | _ => [] end) l.
(* the members of the previous, current and next committee, as last announced *)
Definition members (l : list mev) : list bls :=
  fold_left (fun acc e => match e with MCommittees _ a b d => a ++ b ++ d | _ => acc end) l [].
Definition current_of (l : list mev) : list bls :=
  fold_left (fun acc e => match e with MCommittees _ _ b _ => b | _ => acc end) l [].
(* the keys restored from disk since the last announcement *)
Definition restored (l : list mev) : list bls :=
  fold_left (fun acc e => match e with MRestored _ k _ => k :: acc | MCommittees _ _ _ _ => [] | _ => acc end) l [].
(* every committee announced in l has k among its members *)
Definition stays_member (k : bls) (l : list mev) : Prop :=
  forall now a b d, In (MCommittees now a b d) l -> In k (a ++ b ++ d).
(* the node itself wrote a record for k: operator calls and restored records *)
Definition local_write (k : bls) (e : mev) : Prop :=
  match e with MTrusted _ k' _ | MKnown _ k' _ | MBootstrap _ k' _ | MRestored _ k' _ => k' = k | _ => False end.
