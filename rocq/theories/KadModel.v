(** The persistent store of the discovery network (C63): crates/network-libp2p/src/kad.rs 26-113, 174-644, its start-up load,
    crates/network-libp2p/src/consensus.rs 446-486, and the handling of inbound put and add-provider requests, 1974-2106.

    The two kinds of network use separate tables.  A table is a map from the hash of a key to a row; [None] is a row whose bytes
    do not decode.  Simplified: the conversions between the monotonic and the system clock (122-161) are exact, so an expiry is
    a number and [now] is the clock at the call; database operations succeed; the counters do not overflow; the values and
    addresses are opaque; the prometheus gauge is left out.  [option] results with [None] are panics. *)
From Verif Require Import Util.
Local Open Scope N_scope.

(* 30-43, 92-105 *)
Record krec := { k_key : N; k_val : N; k_len : N; k_pub : option N; k_exp : option N }.
Record kprov := { p_key : N; p_peer : N; p_exp : option N; p_addrs : list N }.
(* 57-69 [is_expired] *)
Definition expired (exp : option N) (now : N) : bool := match exp with Some e => e <=? now | None => false end.

Inductive kind := Primary | Worker (id : N).
Definition rtab := bmap (option krec).
Definition ptab := bmap (option (list kprov)).
Record kdb := { d_rec : rtab; d_prov : ptab; d_wrec : rtab; d_wprov : ptab }.
(* libp2p MemoryStoreConfig *)
Record kcfg := { c_max_records : N; c_max_value : N; c_max_per_key : N; c_max_keys : N }.
(* 185-206 *)
Record kstore := { s_kind : kind; s_node : N; s_local : N; s_nrec : N; s_nprov : N }.
Inductive kerr := ValueTooLarge | MaxRecords | MaxProvidedKeys.

(* the match on kad_type in every function *)
Definition recs (d : kdb) (k : kind) : rtab := match k with Primary => d_rec d | Worker _ => d_wrec d end.
Definition provs (d : kdb) (k : kind) : ptab := match k with Primary => d_prov d | Worker _ => d_wprov d end.
Definition set_recs (d : kdb) (k : kind) (t : rtab) : kdb :=
  match k with
  | Primary => {| d_rec := t; d_prov := d_prov d; d_wrec := d_wrec d; d_wprov := d_wprov d |}
  | Worker _ => {| d_rec := d_rec d; d_prov := d_prov d; d_wrec := t; d_wprov := d_wprov d |}
  end.
Definition set_provs (d : kdb) (k : kind) (t : ptab) : kdb :=
  match k with
  | Primary => {| d_rec := d_rec d; d_prov := t; d_wrec := d_wrec d; d_wprov := d_wprov d |}
  | Worker _ => {| d_rec := d_rec d; d_prov := d_prov d; d_wrec := d_wrec d; d_wprov := t |}
  end.
Definition set_nrec (s : kstore) (n : N) : kstore :=
  {| s_kind := s_kind s; s_node := s_node s; s_local := s_local s; s_nrec := n; s_nprov := s_nprov s |}.
Definition set_nprov (s : kstore) (n : N) : kstore :=
  {| s_kind := s_kind s; s_node := s_node s; s_local := s_local s; s_nrec := s_nrec s; s_nprov := n |}.
(* Database::remove: succeeds whether the key is there or not *)
Definition tdel {V} (k : N) (t : bmap V) : bmap V := filter (fun e => negb (fst e =? k)) t.
Definition tcount {V} (t : bmap V) : N := N.of_nat (length t).
(* removing the collected keys one after another *)
Definition tdel_all {V} (ks : list N) (t : bmap V) : bmap V := fold_left (fun t k => tdel k t) ks t.

Section K.
Variable kh : N -> N.                      (* 248-252 key_to_hash *)
Variable cfg : kcfg.

(* 215-237 *)
Definition new_store (d : kdb) (k : kind) (node local : N) : kstore :=
  {| s_kind := k; s_node := node; s_local := local; s_nrec := tcount (recs d k); s_nprov := tcount (provs d k) |}.

(* 256-289: the scan panics on a row that does not decode *)
Fixpoint expired_keys (now : N) (t : rtab) : option (list N) :=
  match t with
  | [] => Some []
  | (_, None) :: _ => None
  | (h, Some r) :: t' =>
    match expired_keys now t' with
    | None => None
    | Some ks => Some (if expired (k_exp r) now then h :: ks else ks)
    end
  end.
Definition evict_expired_records (d : kdb) (s : kstore) (now : N) : option (kdb * kstore) :=
  match expired_keys now (recs d (s_kind s)) with
  | None => None
  | Some ks => Some (set_recs d (s_kind s) (tdel_all ks (recs d (s_kind s))), set_nrec s (s_nrec s - N.of_nat (length ks)))
  end.
(* 293-333 *)
Definition droppable (now : N) (row : option (list kprov)) : bool :=
  match row with
  | None => true
  | Some l => match l with [] => false | _ => forallb (fun r => expired (p_exp r) now) l end
  end.
Definition evict_expired_providers (d : kdb) (s : kstore) (now : N) : kdb * kstore :=
  let ks := map fst (filter (fun e => droppable now (snd e)) (provs d (s_kind s))) in
  (set_provs d (s_kind s) (tdel_all ks (provs d (s_kind s))), set_nprov s (s_nprov s - N.of_nat (length ks))).
(* 341-363 *)
Definition scrub_corrupt_providers (d : kdb) (s : kstore) : kdb * kstore :=
  let ks := map fst (filter (fun e => match snd e with None => true | Some _ => false end) (provs d (s_kind s))) in
  (set_provs d (s_kind s) (tdel_all ks (provs d (s_kind s))), set_nprov s (s_nprov s - N.of_nat (length ks))).

(* 429-441 *)
Definition get (d : kdb) (s : kstore) (now k : N) : option (option krec) :=
  match bm_lookup (kh k) (recs d (s_kind s)) with
  | None => Some None
  | Some None => None
  | Some (Some r) => Some (if expired (k_exp r) now then None else Some r)
  end.
(* 443-483 *)
Definition put (d : kdb) (s : kstore) (now : N) (r : krec) : option (kdb * kstore * option kerr) :=
  if c_max_value cfg <=? k_len r then Some (d, s, Some ValueTooLarge)
  else
    let write d s := (set_recs d (s_kind s) (bm_insert (kh (k_key r)) (Some r) (recs d (s_kind s))), s, None) in
    match bm_lookup (kh (k_key r)) (recs d (s_kind s)) with
    | Some _ => Some (write d s)
    | None =>
      if c_max_records cfg <=? s_nrec s then
        match evict_expired_records d s now with
        | None => None
        | Some (d', s') =>
          if c_max_records cfg <=? s_nrec s' then Some (d', s', Some MaxRecords)
          else Some (write d' (set_nrec s' (s_nrec s' + 1)))
        end
      else Some (write d (set_nrec s (s_nrec s + 1)))
    end.
(* 485-502 *)
Definition remove (d : kdb) (s : kstore) (k : N) : kdb * kstore :=
  (set_recs d (s_kind s) (tdel (kh k) (recs d (s_kind s))), set_nrec s (s_nrec s - 1)).
(* 405-419, 504-510: the records handed out, until the scan panics *)
Fixpoint records_of (now : N) (t : rtab) : option (list krec) :=
  match t with
  | [] => Some []
  | (_, None) :: _ => None
  | (_, Some r) :: t' =>
    match records_of now t' with
    | None => None
    | Some l => Some (if expired (k_exp r) now then l else r :: l)
    end
  end.
Definition records (d : kdb) (s : kstore) (now : N) : option (list krec) := records_of now (recs d (s_kind s)).

(* 370-391 *)
Definition merge_provider (now : N) (existing : list kprov) (kr : kprov) : list kprov + kerr :=
  if existsb (fun r => p_peer r =? p_peer kr) existing
  then inl (map (fun r => if p_peer r =? p_peer kr then kr else r) existing)
  else let pruned := filter (fun r => negb (expired (p_exp r) now)) existing in
       if N.of_nat (length pruned) <? c_max_per_key cfg then inl (pruned ++ [kr]) else inr MaxProvidedKeys.
(* 512-567 *)
Definition add_provider (d : kdb) (s : kstore) (now : N) (r : kprov) : kdb * kstore * option kerr :=
  let h := kh (p_key r) in
  match bm_lookup h (provs d (s_kind s)) with
  | Some row =>
    match (match row with Some existing => merge_provider now existing r | None => inl [r] end) with
    | inr e => (d, s, Some e)
    | inl l => (set_provs d (s_kind s) (bm_insert h (Some l) (provs d (s_kind s))), s, None)
    end
  | None =>
    let '(d', s') := if c_max_keys cfg <=? s_nprov s then evict_expired_providers d s now else (d, s) in
    if s_nprov s' <? c_max_keys cfg
    then (set_provs d' (s_kind s') (bm_insert h (Some [r]) (provs d' (s_kind s'))), set_nprov s' (s_nprov s' + 1), None)
    else (d', s', Some MaxProvidedKeys)
  end.
(* 569-586 *)
Definition providers (d : kdb) (s : kstore) (now k : N) : list kprov :=
  match bm_lookup (kh k) (provs d (s_kind s)) with
  | Some (Some l) => filter (fun r => negb (expired (p_exp r) now)) l
  | _ => []
  end.
(* 588-604 *)
Definition provided (d : kdb) (s : kstore) (now : N) : list kprov :=
  filter (fun r => p_peer r =? s_local s) (providers d s now (s_node s)).
(* 606-643 *)
Definition remove_provider (d : kdb) (s : kstore) (k p : N) : kdb * kstore :=
  let h := kh k in
  match bm_lookup h (provs d (s_kind s)) with
  | None => (d, s)
  | Some row =>
    match (match row with Some l => filter (fun r => negb (p_peer r =? p)) l | None => [] end) with
    | [] => (set_provs d (s_kind s) (tdel h (provs d (s_kind s))), set_nprov s (s_nprov s - 1))
    | remaining => (set_provs d (s_kind s) (bm_insert h (Some remaining) (provs d (s_kind s))), s)
    end
  end.

(* consensus.rs 446-486: [loads] is "the key is a BLS key and the value decodes as a node record" *)
Variable loads : krec -> bool.
Definition start (d : kdb) (k : kind) (node local now : N) : option (kdb * kstore) :=
  let s := new_store d k node local in
  match records d s now with
  | None => None
  | Some l =>
    let '(d1, s1) := fold_left (fun ds r => remove (fst ds) (snd ds) (k_key r)) (filter (fun r => negb (loads r)) l) (d, s) in
    Some (scrub_corrupt_providers d1 s1)
  end.

(* consensus.rs 1974-2046, 2087-2106: an inbound put.  [valid]: the signature is right and the publisher is the record's own
   network key; [stamp]: the timestamp of the node record, if the value decodes.  The flag: a penalty for the source *)
Variable valid : krec -> bool.
Variable stamp : krec -> option N.
Definition is_newer_record (d : kdb) (s : kstore) (now : N) (r : krec) : option bool :=
  match get d s now (k_key r) with
  | None => None
  | Some None => Some true
  | Some (Some x) => Some (match stamp x, stamp r with Some a, Some b => a <? b | _, _ => false end)
  end.
Definition put_request (d : kdb) (s : kstore) (now : N) (banned : N -> bool) (source : N) (r : krec) :
    option (kdb * kstore * bool * option kerr) :=
  if match k_pub r with Some p => banned p | None => true end || banned source
  then Some (d, s, match k_pub r with None => true | Some _ => false end, None)
  else if valid r then
    match is_newer_record d s now r with
    | None => None
    | Some true => match put d s now r with None => None | Some (d', s', e) => Some (d', s', false, e) end
    | Some false => Some (d, s, false, None)
    end
  else Some (d, s, true, None).
(* consensus.rs 2060-2080 *)
Definition add_provider_request (d : kdb) (s : kstore) (now : N) (banned : N -> bool) (r : option kprov) : kdb * kstore * option kerr :=
  match r with
  | Some r => if banned (p_peer r) then (d, s, None) else add_provider d s now r
  | None => (d, s, None)
  end.
End K.
