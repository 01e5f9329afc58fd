(* PeerManager: crates/network-libp2p/src/peers/manager.rs and behavior.rs, on top of the peer store of
   PeersModel and the cache of CacheModel.

   Simplifications, all in one place:
   - a NetworkPublicKey is the PeerId it converts into, as in PeersModel;
   - dial replies (oneshot channels), metrics and logging are dropped; so is the connection direction;
   - an expect() of the cache that fails sets m_dead (the process would panic);
   - the gossipsub blacklist that consensus.rs 1717-1729 maintains from the Banned / Unbanned events the
     swarm hands over is the field m_black, changed when such an event is polled;
   - RpcInfo is N and RpcInfo::validate a parameter; the three f32 computations of limits are parameters;
   - random choices (shuffle, choose_multiple) are driven by a list of indices supplied by the
     environment, which can produce every selection and every order;
   - the routable flag of a peer, which PeersModel drops, is supplied with each heartbeat. *)
From Verif Require Import Util AMap PeersModel CacheModel.
Local Open Scope N_scope.

(* types.rs NetworkInfo *)
Record info := mkInfo { i_key : pid; i_addrs : list maddr; i_ts : N; i_rpc : option N }.
(* the PeerConfig the manager reads: config/network.rs 336-447 *)
Record mcfg := mkMCfg {
  g_store : PeersModel.cfg;                       (* what AllPeers reads *)
  g_target : nat;                                 (* target_num_peers *)
  g_max_peers : nat;                              (* max_peers() *)
  g_max_out : nat;                                (* max_outbound_dialing_peers() *)
  g_rpc_ok : N -> bool }.                         (* RpcInfo::validate *)
(* config/network.rs 444-446 *)
Definition max_discovery (g : mcfg) : nat := (g_target g * 2)%nat.
(* peer.rs 46 *)
Definition max_addrs : nat := 1.

Definition exchange := list (bls * (pid * list maddr)).
(* types.rs PeerEvent *)
Inductive pevent :=
| PDisconnected (p : pid)                         (* PeerDisconnected *)
| PConnected (p : pid) (a : maddr)                (* PeerConnected *)
| PDisconnect (p : pid)                           (* DisconnectPeer *)
| PDisconnectX (p : pid) (x : exchange)           (* DisconnectPeerX *)
| PBanned (p : pid)
| PUnbanned (p : pid)
| PMissing (l : list bls)                         (* MissingAuthorities *)
| PDiscovery.

(* manager.rs 36-115 *)
Record mgr := mkMgr {
  m_local : pid; m_store : store; m_known : list (bls * info); m_pinned : list bls;
  m_events : list pevent; m_dials : list (pid * list maddr); m_temp : cache;
  m_disco : list (pid * list maddr); m_black : list pid; m_dead : bool }.
(* manager.rs 119-154 *)
Definition mgr_new (local : pid) (dur : N) (max_temp : nat) : mgr :=
  mkMgr local empty_store [] [] [] [] (cache_new dur max_temp) [] [] false.

Definition with_store (x : store) (m : mgr) : mgr :=
  mkMgr (m_local m) x (m_known m) (m_pinned m) (m_events m) (m_dials m) (m_temp m) (m_disco m) (m_black m) (m_dead m).
Definition with_known (x : list (bls * info)) (m : mgr) : mgr :=
  mkMgr (m_local m) (m_store m) x (m_pinned m) (m_events m) (m_dials m) (m_temp m) (m_disco m) (m_black m) (m_dead m).
Definition with_pinned (x : list bls) (m : mgr) : mgr :=
  mkMgr (m_local m) (m_store m) (m_known m) x (m_events m) (m_dials m) (m_temp m) (m_disco m) (m_black m) (m_dead m).
Definition with_events (x : list pevent) (m : mgr) : mgr :=
  mkMgr (m_local m) (m_store m) (m_known m) (m_pinned m) x (m_dials m) (m_temp m) (m_disco m) (m_black m) (m_dead m).
Definition with_dials (x : list (pid * list maddr)) (m : mgr) : mgr :=
  mkMgr (m_local m) (m_store m) (m_known m) (m_pinned m) (m_events m) x (m_temp m) (m_disco m) (m_black m) (m_dead m).
Definition with_temp (x : cache) (m : mgr) : mgr :=
  mkMgr (m_local m) (m_store m) (m_known m) (m_pinned m) (m_events m) (m_dials m) x (m_disco m) (m_black m) (m_dead m).
Definition with_disco (x : list (pid * list maddr)) (m : mgr) : mgr :=
  mkMgr (m_local m) (m_store m) (m_known m) (m_pinned m) (m_events m) (m_dials m) (m_temp m) x (m_black m) (m_dead m).
Definition with_black (x : list pid) (m : mgr) : mgr :=
  mkMgr (m_local m) (m_store m) (m_known m) (m_pinned m) (m_events m) (m_dials m) (m_temp m) (m_disco m) x (m_dead m).
Definition with_dead (m : mgr) : mgr :=
  mkMgr (m_local m) (m_store m) (m_known m) (m_pinned m) (m_events m) (m_dials m) (m_temp m) (m_disco m) (m_black m) true.

(* ---------- the actions AllPeers hands back, which PeersModel drops ---------- *)
(* all_peers.rs 440-447 *)
Definition status_all_a (c : cfg) (now : N) (ns : new_status) (l : list pid) (s : store) : store * list (pid * action) :=
  fold_left (fun acc p => let '(s', a) := update_status c now p ns (fst acc) in (s', snd acc ++ [(p, a)])) l (s, []).
(* all_peers.rs 373-447 *)
Definition heartbeat_a (c : cfg) (now : N) (s : store) : store * list (pid * action) :=
  let s1 := status_all c now NDisconnected (timed_out c now s) s in
  status_all_a c now NUnbanned (unbanned_now c now s1) (beat c now s1).
(* all_peers.rs 1040-1064: the peers whose bans were pruned *)
Definition pruned_pids (c : cfg) (s : store) : list pid :=
  let excess := (b_total s - c_max_banned c)%nat in
  snd (fold_left (fun acc e =>
         let '(t, out) := acc in
         let '(t', o) := evict (snd e) t in
         (remove_banned (ips_of (snd e) s) t',
          match o with
          | Some r => match peer_id_for (snd e) r with Some p => out ++ [p] | None => out end
          | None => out
          end)) (collect c excess banned_since s) (s, [])).
(* all_peers.rs 988-998 *)
Definition register_disconnected_a (c : cfg) (now : N) (p : pid) (s : store) : store * action * list pid :=
  let '(s1, a) := update_status c now p NDisconnected s in
  let s2 := prune_disconnected c s1 in
  (prune_banned c s2, a, pruned_pids c s2).
(* all_peers.rs 1194-1242 *)
Definition forgive_act (c : cfg) (now : N) (s : store) (k : bls) : list (pid * action) :=
  match rec_of (Confirmed k) s with
  | Some r0 =>
      match p_net r0 with
      | Some p =>
          let '(s1, st) := ensure_exists c now p NUnbanned s in
          match st with
          | Disconnecting true | Banned _ => [(p, snd (update_status c now p NUnbanned s1))]
          | _ => []
          end
      | None => []
      end
  | None => []
  end.
Definition forgive_a (c : cfg) (now : N) (l : list bls) (s : store) : store * list (pid * action) :=
  fold_left (fun acc k => (forgive c now (fst acc) k, snd acc ++ forgive_act c now (fst acc) k)) l (s, []).
(* all_peers.rs 945-957 with peer.rs exchange_info *)
Definition peer_exchange (s : store) : exchange :=
  flat_map (fun e => match p_status (snd e), p_bls (snd e), p_net (snd e) with
                     | Connected _ _, Some k, Some p =>
                         [(k, (p, match p_addr (snd e) with Some a => [a] | None => [] end))]
                     | _, _, _ => []
                     end) (peers s).
(* all_peers.rs 915-933 *)
Definition is_conn (st : status) : bool := match st with Connected _ _ => true | _ => false end.
Definition pids_where (f : status -> bool) (s : store) : list pid :=
  flat_map (fun e => if f (p_status (snd e))
                     then match peer_id_for (fst e) (snd e) with Some p => [p] | None => [] end
                     else []) (peers s).
Definition connected_pids (s : store) : list pid := pids_where is_conn s.
Definition conn_or_dial_pids (s : store) : list pid := pids_where is_conn_or_dial s.
(* all_peers.rs is_peer_validator: the peer's confirmed key sits in a committee slot *)
Definition is_validator (s : store) (p : pid) : bool :=
  match idx_of p s with Some k => in_slots s k | None => false end.
Definition allowlisted (s : store) (p : pid) : bool :=
  match get_peer s p with Some r => p_oper r | None => false end.

(* ---------- the manager ---------- *)
(* manager.rs 255-257 *)
Definition push (e : pevent) (m : mgr) : mgr := with_events (m_events m ++ [e]) m.
(* manager.rs 426-428 *)
Definition is_local (m : mgr) (p : pid) : bool := N.eqb (m_local m) p.
(* manager.rs 434-442 *)
Definition banned (g : mcfg) (m : mgr) (p : pid) : bool :=
  cache_contains p (m_temp m) || PeersModel.peer_banned (g_store g) (m_store m) p.
(* manager.rs 350-355 *)
Definition temp_ban (now : N) (p : pid) (m : mgr) : mgr :=
  match cache_insert now p (m_temp m) with
  | Some (t, (_, Some o)) => push (PUnbanned o) (with_temp t m)
  | Some (t, (_, None)) => with_temp t m
  | None => with_dead m
  end.
Definition temp_unban (p : pid) (m : mgr) : mgr :=
  match cache_remove p (m_temp m) with
  | Some (t, _) => with_temp t m
  | None => with_dead m
  end.
(* manager.rs 488-502 *)
Definition not_unbanned (p : pid) (e : pevent) : bool :=
  match e with PUnbanned q => negb (N.eqb q p) | _ => true end.
Definition process_ban (p : pid) (m : mgr) : mgr :=
  push (PBanned p) (with_events (filter (not_unbanned p) (m_events m)) m).
(* manager.rs 360-387 *)
Definition apply_action (now : N) (p : pid) (a : action) (m : mgr) : mgr :=
  match a with
  | ABan => process_ban p (temp_ban now p m)
  | ADisconnect => push (PDisconnect p) (temp_ban now p m)
  | ADisconnectPX => let m1 := temp_ban now p m in push (PDisconnectX p (peer_exchange (m_store m1))) m1
  | AUnban => push (PUnbanned p) m
  | ANone => m
  end.
Definition apply_actions (now : N) (l : list (pid * action)) (m : mgr) : mgr :=
  fold_left (fun m e => apply_action now (fst e) (snd e) m) l m.

(* manager.rs 184-253 *)
Definition dial_peer (p : pid) (addrs : list maddr) (m : mgr) : mgr :=
  if is_local m p then m
  else match get_peer (m_store m) p with
       | Some r => match p_status r with
                   | Banned _ | Dialing _ | Connected _ _ => m
                   | _ => with_dials (m_dials m ++ [(p, addrs)]) m
                   end
       | None => with_dials (m_dials m ++ [(p, addrs)]) m
       end.
(* manager.rs 158-182 *)
Definition set_add (k : bls) (l : list bls) : list bls := if memN k l then l else k :: l.
Definition add_trusted_and_dial (g : mcfg) (now : N) (k : bls) (i : info) (m : mgr) : mgr :=
  let m1 := with_store (add_trusted (g_store g) now k (i_key i) (m_store m)) m in
  let m2 := temp_unban (i_key i) m1 in
  let m3 := with_pinned (set_add k (m_pinned m2)) m2 in
  let m4 := with_known (put N.eqb k i (m_known m3)) m3 in
  dial_peer (i_key i) (i_addrs i) m4.
(* manager.rs 267-273 *)
Definition register_dial (g : mcfg) (now : N) (p : pid) (m : mgr) : mgr :=
  with_store (fst (update_status (g_store g) now p NDialing (m_store m))) m.
(* manager.rs 464-481 *)
Definition penalize (g : mcfg) (now : N) (p : pid) (pen : penalty) (m : mgr) : mgr :=
  if is_local m p then m
  else let '(s, a) := PeersModel.process_penalty (g_store g) now p pen (m_store m) in
       apply_action now p a (with_store s m).
(* manager.rs 511-530 *)
Definition disconnect (g : mcfg) (now : N) (p : pid) (px : bool) (m : mgr) : mgr :=
  let m1 := push (if px then PDisconnectX p (peer_exchange (m_store m)) else PDisconnect p) m in
  let '(s, a) := update_status (g_store g) now p (NDisconnecting false) (m_store m1) in
  apply_action now p a (with_store s m1).
(* manager.rs 535-571 *)
Definition register_connection (g : mcfg) (now : N) (p : pid) (a : maddr) (incoming : bool) (m : mgr) : mgr :=
  if PeersModel.peer_banned (g_store g) (m_store m) p then m
  else with_store (fst (update_status (g_store g) now p (NConnected a incoming) (m_store m))) m.
(* manager.rs 579-597 *)
Definition on_disconnected (g : mcfg) (now : N) (p : pid) (m : mgr) : mgr :=
  let '(s, a, pruned) := register_disconnected_a (g_store g) now p (m_store m) in
  let m1 := with_store s m in
  let m2 := match a with ABan => apply_action now p a m1 | _ => m1 end in
  with_events (m_events m2 ++ map PUnbanned pruned) m2.

(* rand: sample without replacement, driven by the indices [is] *)
Fixpoint choose {A} (is : list nat) (n : nat) (l : list A) : list A :=
  match n with
  | O => []
  | S n' => match l with
            | [] => []
            | _ :: _ => let i := (hd 0 is mod length l)%nat in
                        match nth_error l i with
                        | Some x => x :: choose (tl is) n' (firstn i l ++ skipn (S i) l)
                        | None => []
                        end
            end
  end.
(* all_peers.rs 964-979: shuffle, then a stable sort by (aggregate score, routable) *)
Definition key_le (a b : Z * bool) : bool :=
  (fst a <? fst b)%Z || (Z.eqb (fst a) (fst b) && (negb (snd a) || snd b)).
Fixpoint insert_by {A} (key : A -> Z * bool) (x : A) (l : list A) : list A :=
  match l with
  | [] => [x]
  | y :: t => if key_le (key x) (key y) then x :: y :: t else y :: insert_by key x t
  end.
Definition sort_by {A} (key : A -> Z * bool) (l : list A) : list A := fold_right (insert_by key) [] l.
Definition connected_list (s : store) : list (pid * peer) :=
  flat_map (fun e => if is_conn (p_status (snd e))
                     then match peer_id_for (fst e) (snd e) with Some p => [(p, snd e)] | None => [] end
                     else []) (peers s).
Definition rank (rt : pid -> bool) (e : pid * peer) : Z * bool := (s_agg (p_score (snd e)), rt (fst e)).
Definition by_score (rt : pid -> bool) (is : list nat) (s : store) : list (pid * peer) :=
  let l := connected_list s in sort_by (rank rt) (choose is (length l) l).
(* manager.rs 603-640 *)
Fixpoint prune_loop (g : mcfg) (now : N) (excess : nat) (ready : list pid) (m : mgr) : mgr :=
  match ready with
  | [] => m
  | p :: t => match excess with
              | O => m
              | S e => prune_loop g now e t (disconnect g now p true m)
              end
  end.
Definition prunable (s : store) (e : pid * peer) : bool := negb (is_validator s (fst e)) && negb (p_oper (snd e)).
Definition prune_connected (g : mcfg) (now : N) (rt : pid -> bool) (is : list nat) (m : mgr) : mgr :=
  let l := by_score rt is (m_store m) in
  let excess := (length l - g_target g)%nat in
  if (excess =? 0)%nat then m
  else prune_loop g now excess (map fst (filter (prunable (m_store m)) l)) m.
(* manager.rs 645-649 *)
Definition unban_expired (now : N) (m : mgr) : mgr :=
  let '(t, out) := cache_beat now (m_temp m) in
  fold_left (fun m p => push (PUnbanned p) m) out (with_temp t m).

(* manager.rs 1040-1057 *)
Definition valid_ips (s : store) (addrs : list maddr) : bool :=
  existsb (fun a => match a_ip a with Some _ => true | None => false end) addrs &&
  forallb (fun a => match a_ip a with Some x => negb (ip_banned s x) | None => true end) addrs.
(* manager.rs 1078-1096 *)
Definition eligible (m : mgr) (p : pid) (addrs : list maddr) : bool :=
  negb (is_local m p) && (length addrs <=? max_addrs)%nat && valid_ips (m_store m) addrs
  && PeersModel.can_dial (m_store m) p.
(* manager.rs 660-697 *)
Definition on_exchange (g : mcfg) (is : list nat) (x : exchange) (m : mgr) : mgr :=
  let cur := length (m_disco m) in
  if (cur <? max_discovery g)%nat then
    let ok := filter (fun e => eligible m (fst e) (snd e)) (map snd x) in
    let taken := firstn (max_discovery g - cur) (choose is (length ok) ok) in
    with_disco (fold_left (fun d e => put N.eqb (fst e) (snd e) d) taken (m_disco m)) m
  else m.
(* manager.rs 1101-1106 *)
Definition on_discovered (l : list (pid * list maddr)) (m : mgr) : mgr :=
  with_disco (fold_left (fun d e => put N.eqb (fst e) (snd e) d)
                        (filter (fun e => eligible m (fst e) (snd e)) l) (m_disco m)) m.
(* manager.rs 1109-1181; first 1110-1115: the entries that are still eligible *)
Definition still_eligible (m : mgr) : list (pid * list maddr) :=
  filter (fun e => eligible m (fst e) (snd e)) (m_disco m).
(* 1118-1131: the entries to dial now *)
Definition to_dial (g : mcfg) (is : list nat) (m : mgr) : list (pid * list maddr) :=
  let needed := (g_target g - length (conn_or_dial_pids (m_store m)))%nat in
  if (0 <? needed)%nat then choose is needed (still_eligible m) else [].
(* 1134-1137 *)
Definition not_dialed (chosen l : list (pid * list maddr)) : list (pid * list maddr) :=
  fold_left (fun d e => del N.eqb (fst e) d) chosen l.
(* 1146-1152 *)
Definition drop_excess (g : mcfg) (is : list nat) (d : list (pid * list maddr)) : list (pid * list maddr) :=
  fold_left (fun d p => del N.eqb p d) (choose is (length d - max_discovery g) (map fst d)) d.
Definition discovery_beat (g : mcfg) (is1 is2 : list nat) (m : mgr) : mgr :=
  let chosen := to_dial g is1 m in
  let d1 := not_dialed chosen (still_eligible m) in
  let m1 := fold_left (fun m e => dial_peer (fst e) (snd e) m) chosen (with_disco [] m) in
  if (max_discovery g <? length d1)%nat then with_disco (drop_excess g is2 d1) m1
  else if (length d1 <? max_discovery g)%nat then with_disco d1 (push PDiscovery m1)
  else with_disco d1 m1.
(* manager.rs 308-342 *)
Definition mgr_heartbeat (g : mcfg) (now : N) (rt : pid -> bool) (is0 is1 is2 : list nat) (m : mgr) : mgr :=
  let '(s, acts) := heartbeat_a (g_store g) now (m_store m) in
  let m1 := apply_actions now acts (with_store s m) in
  let m2 := prune_connected g now rt is0 m1 in
  let m3 := unban_expired now m2 in
  discovery_beat g is1 is2 m3.

(* manager.rs 1012-1019 *)
Definition auth_to_peer (k : bls) (m : mgr) : option (pid * list maddr) :=
  match get N.eqb k (m_known m) with Some i => Some (i_key i, i_addrs i) | None => None end.
(* manager.rs 776-784 *)
Definition forgive_temp (l : list bls) (m : mgr) : mgr :=
  fold_left (fun m k => match auth_to_peer k m with Some (p, _) => temp_unban p m | None => m end) l m.
(* manager.rs 788-794 *)
Definition chase (l : list bls) (m : mgr) : mgr :=
  match filter (fun k => match get N.eqb k (m_known m) with Some _ => false | None => true end) l with
  | [] => m
  | missing => push (PMissing missing) m
  end.
(* manager.rs 763-768 *)
Definition prune_known (m : mgr) : mgr :=
  with_known (filter (fun e => memN (fst e) (m_pinned m) || in_slots (m_store m) (fst e)) (m_known m)) m.
(* manager.rs 722-743 *)
Definition on_committees (g : mcfg) (now : N) (a b d : list bls) (m : mgr) : mgr :=
  let m1 := chase d (chase b m) in
  let m2 := forgive_temp d (forgive_temp b (forgive_temp a m1)) in
  let s0 := mkStore (peers (m_store m2)) (idx (m_store m2)) a b d
                    (b_total (m_store m2)) (b_ips (m_store m2)) (disc (m_store m2)) in
  let '(s, acts) := forgive_a (g_store g) now (a ++ b ++ d) s0 in
  prune_known (apply_actions now acts (with_store s m2)).
(* manager.rs 750-754 *)
Definition on_prepare (g : mcfg) (now : N) (l : list bls) (m : mgr) : mgr :=
  let m1 := forgive_temp l m in
  let '(s, acts) := forgive_a (g_store g) now l (m_store m1) in
  apply_actions now acts (with_store s m1).

(* manager.rs 965-988 *)
Definition clean (g : mcfg) (i : info) : info :=
  match i_rpc i with
  | Some r => if g_rpc_ok g r then i else mkInfo (i_key i) (i_addrs i) (i_ts i) None
  | None => i
  end.
Definition cache_known (g : mcfg) (now : N) (k : bls) (i : info) (m : mgr) : mgr :=
  let i' := clean g i in
  let m1 := with_store (upsert (g_store g) now k (i_key i') (i_addrs i') (m_store m)) m in
  let m2 := with_known (put N.eqb k i' (m_known m1)) m1 in
  let '(s, acts) := if in_slots (m_store m2) k then forgive_a (g_store g) now [k] (m_store m2) else (m_store m2, []) in
  apply_actions now acts (with_store s m2).
(* manager.rs 812-815 *)
Definition add_known (g : mcfg) (now : N) (k : bls) (i : info) (m : mgr) : mgr :=
  cache_known g now k i (with_pinned (set_add k (m_pinned m)) m).
(* manager.rs 825-827 *)
Definition add_restored := cache_known.
(* manager.rs 840-845 *)
Definition add_bootstrap (g : mcfg) (now : N) (k : bls) (i : info) (m : mgr) : mgr :=
  let m1 := with_pinned (set_add k (m_pinned m)) m in
  match get N.eqb k (m_known m1) with Some _ => m1 | None => cache_known g now k i m1 end.
(* manager.rs 949-955 *)
Definition stale (m : mgr) (k : bls) (i : info) : bool :=
  negb (memN k (m_pinned m)) &&
  match get N.eqb k (m_known m) with Some old => i_ts i <=? i_ts old | None => false end.
(* manager.rs 859-877 *)
Definition add_discovered (g : mcfg) (now : N) (k : bls) (i : info) (m : mgr) : mgr :=
  if negb (in_slots (m_store m) k) then m
  else if stale m k i then m else cache_known g now k i m.
(* manager.rs 894-930 *)
Definition add_self_advertised (g : mcfg) (now : N) (source : pid) (k : bls) (i : info) (m : mgr) : mgr :=
  if in_slots (m_store m) k then (if stale m k i then m else cache_known g now k i m)
  else if N.eqb source (i_key i)
       then with_store (upsert (g_store g) now k (i_key i) (i_addrs i) (m_store m)) m
       else m.
(* manager.rs 991-1006 *)
Definition find_authorities (l : list bls) (m : mgr) : mgr :=
  push (PMissing (filter (fun k => match get N.eqb k (m_known m) with Some _ => false | None => true end) l)) m.
(* manager.rs 1010-1012 *)
Definition get_rpc (k : bls) (m : mgr) : option N :=
  match get N.eqb k (m_known m) with Some i => i_rpc i | None => None end.
(* manager.rs 1025-1035 *)
Definition committee_rpcs (m : mgr) : mgr * list (bls * N) :=
  let m1 := chase (current (m_store m)) m in
  (m1, flat_map (fun k => match get_rpc k m1 with Some r => [(k, r)] | None => [] end) (current (m_store m))).
(* manager.rs 1062-1064 *)
Definition mgr_can_dial (g : mcfg) (m : mgr) (p : pid) : bool := negb (banned g m p) && PeersModel.can_dial (m_store m) p.
(* manager.rs 703-707 *)
Definition important (m : mgr) (p : pid) : bool := is_validator (m_store m) p || allowlisted (m_store m) p.

(* ---------- behavior.rs ---------- *)
(* 23-75: does the swarm go ahead with an outbound dial? *)
Definition dialing_now (m : mgr) (p : pid) : bool :=
  match get_peer (m_store m) p with Some r => match p_status r with Dialing _ => true | _ => false end | None => false end.
Definition pending_out (g : mcfg) (now : N) (op : option pid) (m : mgr) : mgr * bool :=
  match op with
  | None => (m, true)
  | Some p => if is_local m p then (m, false)
              else if dialing_now m p then (m, negb (banned g m p))
              else if mgr_can_dial g m p then (register_dial g now p m, true) else (m, false)
  end.
(* 76-85 *)
Definition pending_in (m : mgr) (a : maddr) : bool := valid_ips (m_store m) [a].
(* 87-108 and 110-134 *)
Definition established (g : mcfg) (m : mgr) (p : pid) (a : maddr) (incoming : bool) : bool :=
  negb (is_local m p) && negb (banned g m p) && (if incoming then true else valid_ips (m_store m) [a]).
(* manager.rs 445-456 *)
Definition limit_reached (g : mcfg) (m : mgr) (incoming : bool) : bool :=
  if incoming then (g_max_peers g <=? length (conn_or_dial_pids (m_store m)))%nat
  else (g_max_out g <=? length (connected_pids (m_store m)))%nat.
(* 232-281 *)
Definition on_established (g : mcfg) (now : N) (p : pid) (a : maddr) (incoming : bool) (m : mgr) : mgr :=
  let m1 := register_connection g now p a incoming m in
  if limit_reached g m1 incoming && negb (important m1 p) then disconnect g now p true m1
  else push (PConnected p a) m1.
(* 284-309 *)
Definition conn_or_disconnecting (m : mgr) (p : pid) : bool :=
  match get_peer (m_store m) p with
  | Some r => match p_status r with Connected _ _ | Disconnecting _ => true | _ => false end
  | None => false
  end.
Definition on_closed (g : mcfg) (now : N) (p : pid) (remaining : nat) (m : mgr) : mgr :=
  if (0 <? remaining)%nat then m
  else let m1 := if conn_or_disconnecting m p then push (PDisconnected p) m else m in
       on_disconnected g now p m1.
(* 315-327 *)
Definition is_connected (m : mgr) (p : pid) : bool :=
  match get_peer (m_store m) p with Some r => is_conn (p_status r) | None => false end.
Definition on_dial_failure (g : mcfg) (now : N) (op : option pid) (m : mgr) : mgr :=
  match op with
  | Some p => if is_connected m p then m else on_disconnected g now p m
  | None => m
  end.
(* 186-216, one poll: the next event, or (none left) the next dial request.  The event's effect on the
   gossipsub blacklist is consensus.rs 1717-1729. *)
Inductive polled := GotEvent (e : pevent) | GotDial (p : pid) (addrs : list maddr) | GotNothing.
Definition deliver (e : pevent) (b : list pid) : list pid :=
  match e with
  | PBanned p => set_insert p b
  | PUnbanned p => set_remove p b
  | _ => b
  end.
Definition poll (g : mcfg) (now : N) (m : mgr) : mgr * polled :=
  match m_events m with
  | e :: t => (with_black (deliver e (m_black m)) (with_events t m), GotEvent e)
  | [] => match m_dials m with
          | (p, addrs) :: t => (register_dial g now p (with_dials t m), GotDial p addrs)
          | [] => (m, GotNothing)
          end
  end.

(* Everything the swarm and the node can ask of the manager, in any order. *)
Inductive mev :=
| MTrusted (now : N) (k : bls) (i : info)
| MDial (p : pid) (addrs : list maddr)
| MPenalty (now : N) (p : pid) (pen : penalty)
| MDisconnect (now : N) (p : pid) (px : bool)
| MPendingOut (now : N) (op : option pid)
| MEstablished (now : N) (p : pid) (a : maddr) (incoming : bool)
| MClosed (now : N) (p : pid) (remaining : nat)
| MDialFailure (now : N) (op : option pid)
| MExchange (is : list nat) (x : exchange)
| MDiscovered (l : list (pid * list maddr))
| MCommittees (now : N) (a b d : list bls)
| MPrepare (now : N) (l : list bls)
| MKnown (now : N) (k : bls) (i : info)
| MRestored (now : N) (k : bls) (i : info)
| MBootstrap (now : N) (k : bls) (i : info)
| MKad (now : N) (k : bls) (i : info)
| MSelfAdv (now : N) (source : pid) (k : bls) (i : info)
| MFind (l : list bls)
| MRpcs
| MHeartbeat (now : N) (rt : pid -> bool) (is0 is1 is2 : list nat)
| MPoll (now : N)
| MReorder (i : nat).                             (* the peer HashMap is iterated in another order *)
Definition mstep (g : mcfg) (m : mgr) (e : mev) : mgr :=
  match e with
  | MTrusted now k i => add_trusted_and_dial g now k i m
  | MDial p addrs => dial_peer p addrs m
  | MPenalty now p pen => penalize g now p pen m
  | MDisconnect now p px => disconnect g now p px m
  | MPendingOut now op => fst (pending_out g now op m)
  | MEstablished now p a inc => if established g m p a inc then on_established g now p a inc m else m
  | MClosed now p rem => on_closed g now p rem m
  | MDialFailure now op => on_dial_failure g now op m
  | MExchange is x => on_exchange g is x m
  | MDiscovered l => on_discovered l m
  | MCommittees now a b d => on_committees g now a b d m
  | MPrepare now l => on_prepare g now l m
  | MKnown now k i => add_known g now k i m
  | MRestored now k i => add_restored g now k i m
  | MBootstrap now k i => add_bootstrap g now k i m
  | MKad now k i => add_discovered g now k i m
  | MSelfAdv now src k i => add_self_advertised g now src k i m
  | MFind l => find_authorities l m
  | MRpcs => fst (committee_rpcs m)
  | MHeartbeat now rt is0 is1 is2 => mgr_heartbeat g now rt is0 is1 is2 m
  | MPoll now => fst (poll g now m)
  | MReorder i => with_store (set_peers (move_front i (peers (m_store m))) (m_store m)) m
  end.
Definition mrun (g : mcfg) (l : list mev) (m : mgr) : mgr := fold_left (mstep g) l m.
