(* The peer store of crates/network-libp2p/src/peers: Score (score.rs), Peer (peer.rs), BannedPeers
   (banned.rs) and AllPeers (all_peers.rs).

   Simplifications, all in one place:
   - a NetworkPublicKey is represented by the PeerId it converts into (the conversion is pure and
     injective for the ed25519 keys in use), so "network key" and "peer id" are the same type here;
   - f64 scores are integers in an arbitrary fixed unit (c_unit is the score 1.0); the exponential
     decay  score * exp(halflife_decay * elapsed)  is a parameter (c_decay) about which the proofs
     assume only what they state; rounding of the additions is not modelled;
   - Instant is N, passed to every call ("now"); clocks may move in any way unless a theorem says so;
   - a HashMap is an association list; the order in which Rust would iterate it is the list order, and
     the event EMoveFront lets the environment reorder it arbitrarily between calls;
   - the IP lists carried by PeerAction::Ban / Unban and by the pruned peers are dropped (manager.rs
     340-371, 590-596 only log them), as are pending_dials (dial replies), connection_direction and
     routable (which influence neither counters, scores, nor bans). *)
From Verif Require Import Util AMap.
Local Open Scope N_scope.

Definition pid := N.
Definition bls := N.
Definition ipaddr := N.

(* A multiaddr: the IP it carries if any (peer.rs 221-227), and the rest. *)
Record maddr := mkAddr { a_ip : option ipaddr; a_rest : N }.

(* types.rs 27-33 *)
Inductive ident := Confirmed (k : bls) | Unident (p : pid).
Definition ident_eqb (a b : ident) : bool :=
  match a, b with
  | Confirmed x, Confirmed y => N.eqb x y
  | Unident x, Unident y => N.eqb x y
  | _, _ => false
  end.

(* status.rs 10-38 *)
Inductive status :=
| Connected (num_in num_out : N)
| Disconnecting (banned : bool)
| Disconnected (t : N)
| Banned (t : N)
| Dialing (t : N)
| Unknown.
(* status.rs 64-90 *)
Inductive new_status :=
| NConnected (a : maddr) (incoming : bool)
| NDisconnecting (banned : bool)
| NDialing
| NDisconnected
| NBanned
| NUnbanned.

Definition is_disc (s : status) : bool := match s with Disconnected _ => true | _ => false end.
Definition is_banned_st (s : status) : bool := match s with Banned _ => true | _ => false end.
(* status.rs 56-59 *)
Definition is_conn_or_dial (s : status) : bool :=
  match s with Connected _ _ | Dialing _ => true | _ => false end.

(* types.rs 110-130 *)
Inductive penalty := Mild | Medium | Severe | Fatal.
(* score.rs 196-204 *)
Inductive reputation := RTrusted | RDisconnected | RBanned.
Definition rep_eqb (a b : reputation) : bool :=
  match a, b with
  | RTrusted, RTrusted | RDisconnected, RDisconnected | RBanned, RBanned => true
  | _, _ => false
  end.
(* types.rs 83-97 *)
Inductive action := ABan | ANone | ADisconnect | ADisconnectPX | AUnban.

(* config/network.rs 453-474 (ScoreConfig) and 339-386 (the PeerConfig fields AllPeers reads);
   c_rank breaks ties between equal instants in the pruning heap (Ord of PeerIdentity, types.rs 25) *)
Record cfg := mkCfg {
  c_unit : Z; c_default : Z; c_max : Z; c_min : Z; c_disc : Z; c_ban : Z;
  c_lock : N; c_decay : N -> Z -> Z;
  c_dial_timeout : N; c_max_banned : nat; c_max_disc : nat; c_rank : ident -> N }.

(* score.rs 37-47 *)
Record score := mkScore { s_val : Z; s_agg : Z; s_upd : N }.
(* score.rs 49-59, 63-71 *)
Definition score_default (c : cfg) (now : N) : score := mkScore (c_default c) (c_default c) now.
Definition score_max (c : cfg) (now : N) : score := mkScore (c_max c) (c_max c) now.
(* score.rs 100-103: f64::clamp *)
Definition clamp (c : cfg) (x : Z) : Z := Z.min (c_max c) (Z.max (c_min c) x).
(* score.rs 155-158 *)
Definition s_banned (c : cfg) (s : score) : bool := (s_agg s <=? c_ban c)%Z.
(* score.rs 134-152: the lockout starts when the aggregate first crosses the ban threshold *)
Definition update_score (c : cfg) (s : score) : score :=
  let s' := mkScore (s_val s) (s_val s) (s_upd s) in
  if negb (s_banned c s) && s_banned c s'
  then mkScore (s_val s) (s_val s) (s_upd s + c_lock c) else s'.
(* score.rs 81-97 *)
Definition score_penalty (c : cfg) (pen : penalty) (s : score) : score :=
  let v := match pen with
           | Mild => clamp c (s_val s - c_unit c)
           | Medium => clamp c (s_val s - 5 * c_unit c)
           | Severe => clamp c (s_val s - 10 * c_unit c)
           | Fatal => c_min c
           end in
  update_score c (mkScore v (s_agg s) (s_upd s)).
(* score.rs 106-131: no change while last_updated is in the future *)
Definition score_update (c : cfg) (now : N) (s : score) : score :=
  if s_upd s <=? now
  then update_score c (mkScore (c_decay c (now - s_upd s) (s_val s)) (s_agg s) now)
  else s.
(* score.rs 161-175 *)
Definition reputation_of (c : cfg) (s : score) : reputation :=
  if (s_agg s <=? c_ban c)%Z then RBanned
  else if (s_agg s <=? c_disc c)%Z then RDisconnected else RTrusted.

(* peer.rs 52-94; the multiaddr set has capacity MAX_MULTIADDRS_PER_PEER = 1 (peer.rs 46) *)
Record peer := mkPeer {
  p_bls : option bls; p_net : option pid; p_score : score; p_addr : option maddr;
  p_ips : list ipaddr; p_status : status; p_oper : bool }.
Definition with_status (st : status) (r : peer) : peer :=
  mkPeer (p_bls r) (p_net r) (p_score r) (p_addr r) (p_ips r) st (p_oper r).
Definition with_score (sc : score) (r : peer) : peer :=
  mkPeer (p_bls r) (p_net r) sc (p_addr r) (p_ips r) (p_status r) (p_oper r).
(* derived Default of Peer, peer.rs 50 *)
Definition peer_default (c : cfg) (now : N) : peer :=
  mkPeer None None (score_default c now) None [] Unknown false.
(* peer.rs 98-110 *)
Definition peer_trusted (c : cfg) (now : N) (k : bls) (p : pid) : peer :=
  mkPeer (Some k) (Some p) (score_max c now) None [] Unknown true.
(* peer.rs 113-129, as called with no addresses (all_peers.rs 245) *)
Definition peer_new (c : cfg) (now : N) (k : bls) (p : pid) : peer :=
  mkPeer (Some k) (Some p) (score_default c now) None [] Unknown false.
(* peer.rs 181-189: with capacity one the newest address replaces the old one *)
Definition note_multiaddr (a : maddr) (r : peer) : peer :=
  mkPeer (p_bls r) (p_net r) (p_score r) (Some a) (p_ips r) (p_status r) (p_oper r).
(* peer.rs 157-166 *)
Definition update_net (k : bls) (p : pid) (addrs : list maddr) (r : peer) : peer :=
  fold_left (fun r a => note_multiaddr a r) addrs
    (mkPeer (Some k) (Some p) (p_score r) (p_addr r) (p_ips r) (p_status r) (p_oper r)).
(* peer.rs 206-208 *)
Definition rep (c : cfg) (r : peer) : reputation := reputation_of c (p_score r).
(* peer.rs 233-258: an exempt peer bypasses the score model *)
Definition apply_penalty (c : cfg) (pen : penalty) (exempt : bool) (r : peer) : peer :=
  if exempt then r else with_score (score_penalty c pen (p_score r)) r.
(* peer.rs 264-273 *)
Definition ensure_banned (c : cfg) (exempt : bool) (r : peer) : peer :=
  match rep c r with RBanned => r | _ => apply_penalty c Fatal exempt r end.
(* peer.rs 303-307 with Ord of Score, score.rs 179-193 *)
Definition retain_worse (other r : peer) : peer :=
  if (s_agg (p_score other) <? s_agg (p_score r))%Z then with_score (p_score other) r else r.
(* HashSet::insert on the observed addresses *)
Definition observe (a : maddr) (ips : list ipaddr) : list ipaddr :=
  match a_ip a with
  | Some x => if memN x ips then ips else x :: ips
  | None => ips
  end.
(* peer.rs 312-359: both directions; the u8 counters saturate *)
Definition register_conn (a : maddr) (incoming : bool) (r : peer) : peer :=
  let st := match p_status r with
            | Connected i o => if incoming then Connected (N.min 255 (i + 1)) o
                               else Connected i (N.min 255 (o + 1))
            | _ => if incoming then Connected 1 0 else Connected 0 1
            end in
  mkPeer (p_bls r) (p_net r) (p_score r) (Some a) (observe a (p_ips r)) st (p_oper r).
(* peer.rs 363-375 *)
Definition register_dialing (now : N) (r : peer) : peer :=
  match p_status r with
  | Connected _ _ | Dialing _ | Disconnecting _ => r
  | Disconnected _ | Banned _ | Unknown => with_status (Dialing now) r
  end.
(* peer.rs 380-388 *)
Definition peer_can_dial (r : peer) : bool :=
  match p_status r with
  | Disconnecting b => negb b
  | Connected _ _ | Dialing _ | Banned _ => false
  | Disconnected _ | Unknown => true
  end.
(* peer.rs 403-437: the flag says ReputationUpdate::Unbanned, the only update acted on
   (all_peers.rs 421-437) *)
Definition peer_heartbeat (c : cfg) (now : N) (exempt : bool) (r : peer) : peer * bool :=
  if exempt then (r, false)
  else let r' := with_score (score_update c now (p_score r)) r in
       (r', rep_eqb (rep c r) RBanned && negb (rep_eqb (rep c r') RBanned)).

(* banned.rs 22-30 and all_peers.rs 38-78 *)
Record store := mkStore {
  peers : list (ident * peer); idx : list (pid * bls);
  previous : list bls; current : list bls; next : list bls;
  b_total : nat; b_ips : list (ipaddr * nat); disc : nat }.
Definition empty_store : store := mkStore [] [] [] [] [] 0 [] 0.

Definition set_peers (x : list (ident * peer)) (s : store) : store :=
  mkStore x (idx s) (previous s) (current s) (next s) (b_total s) (b_ips s) (disc s).
Definition set_idx (x : list (pid * bls)) (s : store) : store :=
  mkStore (peers s) x (previous s) (current s) (next s) (b_total s) (b_ips s) (disc s).
Definition set_bans (t : nat) (x : list (ipaddr * nat)) (s : store) : store :=
  mkStore (peers s) (idx s) (previous s) (current s) (next s) t x (disc s).
Definition set_disc (d : nat) (s : store) : store :=
  mkStore (peers s) (idx s) (previous s) (current s) (next s) (b_total s) (b_ips s) d.

Definition rec_of (id : ident) (s : store) : option peer := get ident_eqb id (peers s).
Definition put_rec (id : ident) (r : peer) (s : store) : store :=
  set_peers (put ident_eqb id r (peers s)) s.
Definition del_rec (id : ident) (s : store) : store := set_peers (del ident_eqb id (peers s)) s.
Definition idx_of (p : pid) (s : store) : option bls := get N.eqb p (idx s).
Definition ip_count (x : ipaddr) (m : list (ipaddr * nat)) : nat :=
  match get N.eqb x m with Some n => n | None => 0%nat end.

(* banned.rs 33-60 *)
Definition dec_ip (m : list (ipaddr * nat)) (x : ipaddr) : list (ipaddr * nat) :=
  match get N.eqb x m with
  | Some n => if (n - 1 =? 0)%nat then del N.eqb x m else put N.eqb x (n - 1)%nat m
  | None => m
  end.
Definition remove_banned (ips : list ipaddr) (s : store) : store :=
  set_bans (b_total s - 1) (fold_left dec_ip ips (b_ips s)) s.
(* banned.rs 63-76 *)
Definition remove_validator_ip (ips : list ipaddr) (s : store) : store :=
  set_bans (b_total s) (fold_left (fun m x => del N.eqb x m) ips (b_ips s)) s.
(* banned.rs 79-85 *)
Definition inc_ip (m : list (ipaddr * nat)) (x : ipaddr) : list (ipaddr * nat) :=
  put N.eqb x (ip_count x m + 1)%nat m.
Definition add_banned (r : peer) (s : store) : store :=
  set_bans (b_total s + 1) (fold_left inc_ip (p_ips r) (b_ips s)) s.
(* banned.rs 17-18, 109-111, all_peers.rs 901-903 *)
Definition ip_banned (s : store) (x : ipaddr) : bool := (1 <? ip_count x (b_ips s))%nat.

(* all_peers.rs 106-112 *)
Definition identity_for (s : store) (p : pid) : ident :=
  match idx_of p s with Some k => Confirmed k | None => Unident p end.
(* all_peers.rs 118-123 *)
Definition peer_id_for (id : ident) (r : peer) : option pid :=
  match id with Unident p => Some p | Confirmed _ => p_net r end.
(* all_peers.rs 126-134 *)
Definition evict (id : ident) (s : store) : store * option peer :=
  match rec_of id s with
  | None => (s, None)
  | Some r =>
      let s1 := del_rec id s in
      match id, p_net r with
      | Confirmed _, Some p => (set_idx (del N.eqb p (idx s1)) s1, Some r)
      | _, _ => (s1, Some r)
      end
  end.
(* all_peers.rs 142-155 *)
Definition release (r : peer) (s : store) : store :=
  match p_status r with
  | Disconnected _ => set_disc (disc s - 1) s
  | Banned _ => remove_banned (p_ips r) s
  | _ => s
  end.
(* all_peers.rs 167-185 *)
Definition normalize (now : N) (r : peer) (s : store) : peer * store :=
  match p_status r with
  | Connected _ _ | Dialing _ | Disconnecting false =>
      (with_status (Disconnected now) r, set_disc (disc s + 1) s)
  | Disconnecting true =>
      let r' := with_status (Banned now) r in (r', add_banned r' s)
  | Disconnected _ | Banned _ | Unknown => (r, s)
  end.
Definition opt_release (o : option peer) (s : store) : store :=
  match o with Some r => release r s | None => s end.
(* all_peers.rs 190-212 *)
Definition add_trusted (c : cfg) (now : N) (k : bls) (p : pid) (s : store) : store :=
  let cur := identity_for s p in
  let s1 := if ident_eqb cur (Confirmed k) then s
            else let '(s', o) := evict cur s in opt_release o s' in
  let s2 := let '(s', o) := evict (Confirmed k) s1 in opt_release o s' in
  let s3 := set_idx (put N.eqb p k (idx s2)) s2 in
  put_rec (Confirmed k) (peer_trusted c now k p) s3.
(* all_peers.rs 213-261 *)
Definition upsert (c : cfg) (now : N) (k : bls) (p : pid) (addrs : list maddr) (s : store) : store :=
  let cur := identity_for s p in
  let '(s1, rotated) := if ident_eqb cur (Confirmed k) then (s, None) else evict (Confirmed k) s in
  let migrated := rec_of cur s1 in
  let s2 := del_rec cur s1 in
  let '(r, s3) :=
    match migrated, rotated with
    | Some m, Some d => (update_net k p addrs (retain_worse d m), release d s2)
    | Some m, None => (update_net k p addrs m, s2)
    | None, Some d => normalize now (update_net k p addrs d) s2
    | None, None => normalize now (update_net k p addrs (peer_new c now k p)) s2
    end in
  let s4 := set_idx (put N.eqb p k (idx s3)) s3 in
  put_rec (Confirmed k) r s4.

(* all_peers.rs 1157-1161 *)
Definition in_slots (s : store) (k : bls) : bool :=
  memN k (previous s) || memN k (current s) || memN k (next s).
(* all_peers.rs 856-878 *)
Definition exempt (s : store) (id : ident) (r : peer) : bool :=
  match id with
  | Confirmed k => in_slots s k || p_oper r
  | Unident _ => p_oper r
  end.
(* all_peers.rs 888-899 *)
Definition trust_basis (s : store) (id : ident) : bool :=
  match rec_of id s with Some r => exempt s id r | None => false end.
(* all_peers.rs 822-824, 908-912 *)
Definition get_peer (s : store) (p : pid) : option peer := rec_of (identity_for s p) s.
Definition peer_banned (c : cfg) (s : store) (p : pid) : bool :=
  match get_peer s p with
  | Some r => rep_eqb (rep c r) RBanned || existsb (ip_banned s) (p_ips r)
  | None => false
  end.
(* all_peers.rs 1248-1251 *)
Definition can_dial (s : store) (p : pid) : bool :=
  match get_peer s p with Some r => peer_can_dial r | None => true end.

(* all_peers.rs 315-366 *)
Definition ensure_exists (c : cfg) (now : N) (p : pid) (ns : new_status) (s : store) : store * status :=
  let resolved := identity_for s p in
  let stale := match resolved, rec_of resolved s with Confirmed _, None => true | _, _ => false end in
  let s1 := if stale then set_idx (del N.eqb p (idx s)) s else s in
  let id := if stale then Unident p else resolved in
  let s2 := match rec_of id s1 with Some _ => s1 | None => put_rec id (peer_default c now) s1 end in
  let s3 := match ns, rec_of id s2 with
            | NBanned, Some r =>
                put_rec id (ensure_banned c (trust_basis s2 (identity_for s2 p)) r) s2
            | _, _ => s2
            end in
  (s3, match rec_of id s3 with Some r => p_status r | None => Unknown end).

(* all_peers.rs 538-572 *)
Definition to_connected (p : pid) (cs : status) (a : maddr) (incoming : bool) (s : store) : store :=
  let id := identity_for s p in
  match rec_of id s with
  | None => s
  | Some r =>
      let s1 := match cs with
                | Disconnected _ => set_disc (disc s - 1) s
                | Banned _ => remove_banned (p_ips r) s
                | _ => s
                end in
      put_rec id (register_conn a incoming r) s1
  end.
(* all_peers.rs 575-608 *)
Definition to_dialing (now : N) (p : pid) (cs : status) (s : store) : store :=
  let id := identity_for s p in
  match rec_of id s with
  | None => s
  | Some r =>
      let s1 := match cs with
                | Banned _ => remove_banned (p_ips r) s
                | Disconnected _ => set_disc (disc s - 1) s
                | _ => s
                end in
      put_rec id (register_dialing now r) s1
  end.
Definition set_status (p : pid) (st : status) (s : store) : store :=
  let id := identity_for s p in
  match rec_of id s with Some r => put_rec id (with_status st r) s | None => s end.
(* all_peers.rs 648-669 *)
Definition to_disconnected_banned (now : N) (p : pid) (s : store) : store :=
  let id := identity_for s p in
  match rec_of id s with
  | Some r => let r' := with_status (Banned now) r in add_banned r' (put_rec id r' s)
  | None => s
  end.
(* all_peers.rs 611-680 *)
Definition to_disconnected (now : N) (p : pid) (cs : status) (s : store) : store * action :=
  match cs with
  | Banned _ | Disconnected _ => (s, ANone)
  | Disconnecting true => (to_disconnected_banned now p s, ABan)
  | Disconnecting false | Unknown | Connected _ _ | Dialing _ =>
      (set_status p (Disconnected now) (set_disc (disc s + 1) s), ANone)
  end.
(* all_peers.rs 683-715 *)
Definition to_disconnecting (p : pid) (cs : status) (banned : bool) (s : store) : store * action :=
  let s1 := set_status p (Disconnecting banned) s in
  match cs with
  | Disconnected _ => (set_disc (disc s1 - 1) s1, ANone)
  | Connected _ _ | Dialing _ => (s1, if banned then ADisconnect else ADisconnectPX)
  | Banned _ | Disconnecting _ | Unknown => (s1, ANone)
  end.
(* all_peers.rs 718-769 *)
Definition to_banned (now : N) (p : pid) (cs : status) (s : store) : store * action :=
  let id := identity_for s p in
  match rec_of id s with
  | None => (s, ANone)
  | Some r =>
      match cs with
      | Disconnected _ =>
          let s1 := add_banned r s in
          let s2 := set_disc (disc s1 - 1) s1 in
          (if is_banned_st (p_status r) then s2 else put_rec id (with_status (Banned now) r) s2, ABan)
      | Disconnecting _ => (put_rec id (with_status (Disconnecting true) r) s, ANone)
      | Banned _ => (s, ABan)
      | Connected _ _ | Dialing _ => (put_rec id (with_status (Disconnecting true) r) s, ADisconnect)
      | Unknown => (put_rec id (with_status (Banned now) r) (add_banned r s), ABan)
      end
  end.
(* all_peers.rs 772-819 *)
Definition to_unbanned (p : pid) (cs : status) (s : store) : store * action :=
  let id := identity_for s p in
  match rec_of id s with
  | None => (s, ANone)
  | Some r =>
      match cs with
      | Banned t =>
          let s1 := put_rec id (with_status (Disconnected t) r) s in
          let s2 := remove_banned (p_ips r) s1 in
          (set_disc (disc s2 + 1) s2, AUnban)
      | Disconnecting true => (put_rec id (with_status (Disconnecting false) r) s, ANone)
      | _ => (s, ANone)
      end
  end.
(* all_peers.rs 453-464, 502-535 *)
Definition update_status (c : cfg) (now : N) (p : pid) (ns : new_status) (s : store) : store * action :=
  let '(s1, cs) := ensure_exists c now p ns s in
  match ns with
  | NConnected a incoming => (to_connected p cs a incoming s1, ANone)
  | NDialing => (to_dialing now p cs s1, ANone)
  | NDisconnected => to_disconnected now p cs s1
  | NDisconnecting b => to_disconnecting p cs b s1
  | NBanned => to_banned now p cs s1
  | NUnbanned => to_unbanned p cs s1
  end.

(* all_peers.rs 264-308 *)
Definition process_penalty (c : cfg) (now : N) (p : pid) (pen : penalty) (s : store) : store * action :=
  let id := identity_for s p in
  let ex := trust_basis s id in
  match rec_of id s with
  | None => (s, ANone)
  | Some r =>
      let r' := apply_penalty c pen ex r in
      let s1 := put_rec id r' s in
      if rep_eqb (rep c r') (rep c r) then (s1, ANone)
      else match rep c r' with
           | RBanned => update_status c now p NBanned s1
           | RDisconnected =>
               if is_conn_or_dial (p_status r') then update_status c now p (NDisconnecting true) s1
               else update_status c now p NDisconnected s1
           | RTrusted => (s1, ANone)
           end
  end.

(* all_peers.rs 374-384: the dials that timed out *)
Definition timed_out (c : cfg) (now : N) (s : store) : list pid :=
  flat_map (fun e => match p_status (snd e) with
                     | Dialing t => if t + c_dial_timeout c <? now
                                    then match peer_id_for (fst e) (snd e) with Some p => [p] | None => [] end
                                    else []
                     | _ => []
                     end) (peers s).
(* all_peers.rs 412-440 *)
Definition beat (c : cfg) (now : N) (s : store) : store :=
  set_peers (map (fun e => (fst e, fst (peer_heartbeat c now (exempt s (fst e) (snd e)) (snd e)))) (peers s)) s.
Definition unbanned_now (c : cfg) (now : N) (s : store) : list pid :=
  flat_map (fun e => if snd (peer_heartbeat c now (exempt s (fst e) (snd e)) (snd e))
                     then match peer_id_for (fst e) (snd e) with Some p => [p] | None => [] end
                     else []) (peers s).
Definition status_all (c : cfg) (now : N) (ns : new_status) (l : list pid) (s : store) : store :=
  fold_left (fun s p => fst (update_status c now p ns s)) l s.
(* all_peers.rs 374-404 and 412-448 *)
Definition heartbeat (c : cfg) (now : N) (s : store) : store :=
  let s1 := status_all c now NDisconnected (timed_out c now s) s in
  status_all c now NUnbanned (unbanned_now c now s1) (beat c now s1).

(* all_peers.rs 1006-1037: a bounded max-heap on (instant, identity); the newest held entry is
   replaced by a strictly older candidate *)
Definition newer (c : cfg) (a b : N * ident) : bool :=
  (fst b <? fst a) || (N.eqb (fst b) (fst a) && (c_rank c (snd b) <? c_rank c (snd a))).
Fixpoint heap_top (c : cfg) (h : list (N * ident)) : option (N * ident) :=
  match h with
  | [] => None
  | e :: t => match heap_top c t with
              | Some f => if newer c e f then Some e else Some f
              | None => Some e
              end
  end.
Definition entry_eqb (a b : N * ident) : bool := N.eqb (fst a) (fst b) && ident_eqb (snd a) (snd b).
Fixpoint remove_one (e : N * ident) (h : list (N * ident)) : list (N * ident) :=
  match h with
  | [] => []
  | f :: t => if entry_eqb e f then t else f :: remove_one e t
  end.
Definition offer (c : cfg) (excess : nat) (h : list (N * ident)) (e : N * ident) : list (N * ident) :=
  if (length h <? excess)%nat then e :: h
  else match heap_top c h with
       | Some top => if fst e <? fst top then e :: remove_one top h else h
       | None => h
       end.
Definition candidates (since : status -> option N) (s : store) : list (N * ident) :=
  flat_map (fun e => match since (p_status (snd e)) with Some t => [(t, fst e)] | None => [] end) (peers s).
Definition collect (c : cfg) (excess : nat) (since : status -> option N) (s : store) : list (N * ident) :=
  fold_left (offer c excess) (candidates since s) [].

Definition banned_since (st : status) : option N := match st with Banned t => Some t | _ => None end.
Definition disc_since (st : status) : option N := match st with Disconnected t => Some t | _ => None end.
Definition ips_of (id : ident) (s : store) : list ipaddr :=
  match rec_of id s with Some r => p_ips r | None => [] end.
(* all_peers.rs 1040-1064 *)
Definition prune_banned (c : cfg) (s : store) : store :=
  let excess := (b_total s - c_max_banned c)%nat in
  fold_left (fun t e => remove_banned (ips_of (snd e) s) (fst (evict (snd e) t)))
            (collect c excess banned_since s) s.
(* all_peers.rs 1067-1086 *)
Definition prune_disconnected (c : cfg) (s : store) : store :=
  let excess := (disc s - c_max_disc c)%nat in
  fold_left (fun t e => let t1 := fst (evict (snd e) t) in set_disc (disc t1 - 1) t1)
            (collect c excess disc_since s) s.
(* all_peers.rs 988-998 *)
Definition register_disconnected (c : cfg) (now : N) (p : pid) (s : store) : store * action :=
  let '(s1, a) := update_status c now p NDisconnected s in
  (prune_banned c (prune_disconnected c s1), a).

(* all_peers.rs 1194-1242, one member *)
Definition forgive (c : cfg) (now : N) (s : store) (k : bls) : store :=
  match rec_of (Confirmed k) s with
  | Some r0 =>
      match p_net r0 with
      | Some p =>
          let '(s1, st) := ensure_exists c now p NUnbanned s in
          let s2 := match st with
                    | Disconnecting true | Banned _ => fst (update_status c now p NUnbanned s1)
                    | _ => s1
                    end in
          match rec_of (Confirmed k) s2 with
          | Some r => remove_validator_ip (p_ips r) (put_rec (Confirmed k) (with_score (score_max c now) r) s2)
          | None => s2
          end
      | None => s
      end
  | None => s
  end.
(* all_peers.rs 1105-1127 *)
Definition update_committees (c : cfg) (now : N) (a b d : list bls) (s : store) : store :=
  let s1 := mkStore (peers s) (idx s) a b d (b_total s) (b_ips s) (disc s) in
  fold_left (forgive c now) (a ++ b ++ d) s1.
(* all_peers.rs 1137-1142 *)
Definition mark_for_dial (c : cfg) (now : N) (l : list bls) (s : store) : store :=
  fold_left (forgive c now) l s.
(* all_peers.rs 1172-1181 *)
Definition membership (c : cfg) (now : N) (k : bls) (s : store) : store :=
  if in_slots s k then forgive c now s k else s.

Definition move_front {A} (i : nat) (l : list A) : list A :=
  match nth_error l i with Some x => x :: firstn i l ++ skipn (S i) l | None => l end.

(* What PeerManager (manager.rs, behavior.rs) asks of the store.
   EConnect      register_peer_connection, manager.rs 535-571 (guarded by peer_banned)
   EDial         register_dial_attempt, manager.rs 267-274
   EDisconnect   disconnect_peer, manager.rs 511-530: Disconnecting { banned: false }
   EClosed       register_disconnected, manager.rs 579-597
   EPenalty      process_penalty, manager.rs 464-481
   ETrusted      add_trusted_peer_and_dial, manager.rs 154-178
   EUpsert       add_self_advertised_peer / cache_known_peer, manager.rs 891-924, 965-988
   EMember       cache_known_peer's apply_membership_if_committee, manager.rs 986
   ECommittees / EMark  update_committees / prepare_committee_dial, manager.rs 727-757
   EHeartbeat    heartbeat, manager.rs 308-312
   EMoveFront    the HashMap is iterated in another order *)
Inductive ev :=
| EConnect (now : N) (p : pid) (a : maddr) (incoming : bool)
| EDial (now : N) (p : pid)
| EDisconnect (now : N) (p : pid)
| EClosed (now : N) (p : pid)
| EPenalty (now : N) (p : pid) (pen : penalty)
| ETrusted (now : N) (k : bls) (p : pid)
| EUpsert (now : N) (k : bls) (p : pid) (addrs : list maddr)
| EMember (now : N) (k : bls)
| ECommittees (now : N) (a b d : list bls)
| EMark (now : N) (l : list bls)
| EHeartbeat (now : N)
| EMoveFront (i : nat).

Definition step (c : cfg) (s : store) (e : ev) : store :=
  match e with
  | EConnect now p a inc =>
      if peer_banned c s p then s else fst (update_status c now p (NConnected a inc) s)
  | EDial now p => fst (update_status c now p NDialing s)
  | EDisconnect now p => fst (update_status c now p (NDisconnecting false) s)
  | EClosed now p => fst (register_disconnected c now p s)
  | EPenalty now p pen => fst (process_penalty c now p pen s)
  | ETrusted now k p => add_trusted c now k p s
  | EUpsert now k p addrs => upsert c now k p addrs s
  | EMember now k => membership c now k s
  | ECommittees now a b d => update_committees c now a b d s
  | EMark now l => mark_for_dial c now l s
  | EHeartbeat now => heartbeat c now s
  | EMoveFront i => set_peers (move_front i (peers s)) s
  end.
Definition run (c : cfg) (l : list ev) (s : store) : store := fold_left (step c) l s.
