(** What C61's theorems mean: the shape of a pack, the state a database view shows, the chain whose snapshot it is. *)
From Verif Require Import Util EpochModel GasModel SnModel.
Local Open Scope N_scope.

(** ---------- states ---------- *)
(** accounts in strictly ascending address order, slots in strictly ascending order, no zero slot *)
Definition wf_state (st : sstate) : Prop :=
  bm_sorted st /\ Forall (fun e => bm_sorted (snd (snd e)) /\ Forall (fun kv => snd kv <> 0) (snd (snd e))) st.
(** "no code" has two spellings in a database: none, and the hash of the empty code *)
Definition norm_acc (E : senv) (a : sacc) : sacc :=
  mk_sacc (ac_nonce a) (ac_bal a) (match ac_code a with Some h => if h =? sv_code E [] then None else Some h | None => None end).
Definition vmap {A B} (f : A -> B) (m : bmap A) : bmap B := map (fun e => (fst e, f (snd e))) m.
Definition norm (E : senv) (st : sstate) : sstate := vmap (fun p => (norm_acc E (fst p), snd p)) st.
(** the same state under hashed keys *)
Definition rehash {V} (key : N -> N) (m : bmap V) : bmap V := bm_of_list (map (fun e => (key (fst e), snd e)) m).
Definition hashed (E : senv) (st : sstate) : sstate :=
  rehash (sv_key E) (vmap (fun p => (fst p, rehash (sv_key E) (snd p))) st).
(** every code hash of the state has its code *)
Definition codes_for (E : senv) (cs : codes) (st : sstate) : Prop :=
  forall a acc ss h, bm_lookup a st = Some (acc, ss) -> ac_code acc = Some h -> h <> sv_code E [] ->
    exists c, bm_lookup h cs = Some c /\ sv_code E c = h.

(** hashes do not collide, RLP decodes what it encoded, the root commits to the state; the root and contract reads do not see
    which spelling of "no code" an account uses *)
Record senv_sound (E : senv) : Prop := {
  so_hash : forall a b, sv_hash E a = sv_hash E b -> a = b;
  so_rlp : forall h, sv_dec E (sv_enc E h) = Some h;
  so_key : forall a b, sv_key E a = sv_key E b -> a = b;
  so_code : forall a b, sv_code E a = sv_code E b -> a = b;
  so_fs : forall n h n' h', sv_fs E n h = sv_fs E n' h' -> n = n' /\ h = h';
  so_root : forall x y, wf_state x -> wf_state y -> sv_root E x = sv_root E y -> norm E x = norm E y;
  so_norm : forall x, sv_root E (norm E x) = sv_root E x;
  so_read : forall x, sv_epoch E (norm E x) = sv_epoch E x /\ sv_fees E (norm E x) = sv_fees E x }.

(** ---------- packs ---------- *)
(** an account record followed by its storage chunks *)
Definition group := (arec * list (list (N * N)))%type.
Definition group_recs (g : group) : list srec := SAccount (fst g) :: map SStorage (snd g).
Definition body (gs : list group) : list srec := concat (map group_recs gs).
Definition bounded (gs : list group) : Prop := Forall (fun g => Forall (fun c => len c <= 65536) (snd g)) gs.
(** the number of accounts, of slots, of accounts with code *)
Definition counts (gs : list group) : sstats :=
  mk_sstats (len gs) (sumN (map (fun g => sumN (map len (snd g))) gs))
    (len (filter (fun g => match ar_code (fst g) with Some (_ :: _) => true | _ => false end) gs)).
(** headers a pack must carry, and may *)
Definition count_ok (m : smeta) : Prop := 1 <= me_count m <= 4096 /\ N.min (me_num m) 256 <= me_count m.
(** a pack: meta, headers, groups, footer; what follows the footer is not read *)
Definition pack_of (E : senv) (s : stream) (m : smeta) (hs : list shdr) (gs : list group) (f : sstats) (rest : stream) : Prop :=
  exists bs, Forall2 (fun b h => sv_dec E b = Some h) bs hs /\ len hs = me_count m /\ count_ok m /\
    s = Some (SMeta m) :: map (fun b => Some (SHeader b)) bs ++ map Some (body gs) ++ Some (SEnd f) :: rest.

(** what a reader hands out until it stops: accounts or entries, and the error it stopped with *)
Inductive reads : sreader -> list gacct -> option serr -> Prop :=
| reads_end rd rd' : next_account rd = (None, rd') -> reads rd [] None
| reads_err rd e rd' : next_account rd = (Some (inr e), rd') -> reads rd [] (Some e)
| reads_acc rd a rd' l e : next_account rd = (Some (inl a), rd') -> reads rd' l e -> reads rd (a :: l) e.
Inductive reads_entries : sreader -> list sentry -> option serr -> Prop :=
| rde_end rd rd' : next_entry rd = (None, rd') -> reads_entries rd [] None
| rde_err rd e rd' : next_entry rd = (Some (inr e), rd') -> reads_entries rd [] (Some e)
| rde_item rd x rd' l e : next_entry rd = (Some (inl x), rd') -> reads_entries rd' l e -> reads_entries rd (x :: l) e.
(** whole accounts handed out so far *)
Inductive after_accounts : sreader -> list gacct -> sreader -> Prop :=
| after_none rd : after_accounts rd [] rd
| after_one rd a rd1 l rd2 : next_account rd = (Some (inl a), rd1) -> after_accounts rd1 l rd2 -> after_accounts rd (a :: l) rd2.
Definition group_entries (g : group) : list sentry := EAccount (fst g) :: map EStorage (snd g).

(** an account's slots cut into chunks: nothing lost or reordered, no chunk empty or over 65536, every chunk but the last full *)
Definition cut (slots : list (N * N)) (cs : list (list (N * N))) : Prop :=
  concat cs = slots /\ Forall (fun c => c <> [] /\ len c <= 65536) cs /\ Forall (fun c => len c = 65536) (removelast cs).
(** a group that says exactly what the account is *)
Definition says (a : gacct) (g : group) : Prop :=
  fst g = mk_arec (ga_addr a) (ga_nonce a) (ga_bal a) (ga_code a) /\
  cut (match ga_storage a with Some ss => ss | None => [] end) (snd g).

(** ---------- a database view ---------- *)
Definition row_lt (a b : row) : Prop :=
  fst (fst a) < fst (fst b) \/ (fst (fst a) = fst (fst b) /\ snd (fst a) < snd (fst b)).
(** the non-zero slots stored for an address *)
Definition slots_of (rows : list row) (a : N) : list (N * N) :=
  map (fun r => (snd (fst r), snd r)) (filter (fun r => (fst (fst r) =? a) && negb (snd r =? 0)) rows).
(** the view's tables, in cursor order, hold this state; zeroed slots and rows of addresses without an account may be there *)
Definition view_shows (v : sview) (st : sstate) : Prop :=
  vw_accts v = map (fun e => (fst e, fst (snd e))) st /\ StronglySorted row_lt (vw_rows v) /\
  Forall (fun e => slots_of (vw_rows v) (fst e) = snd (snd e)) st.
(** the account as the pack describes it *)
Definition code_of (E : senv) (cs : codes) (a : sacc) : option (list N) :=
  match ac_code a with Some h => if h =? sv_code E [] then None else bm_lookup h cs | None => None end.
Definition described (E : senv) (cs : codes) (e : N * (sacc * bmap N)) : gacct :=
  mk_gacct (fst e) (ac_nonce (fst (snd e))) (ac_bal (fst (snd e))) (code_of E cs (fst (snd e)))
    (match snd (snd e) with [] => None | ss => Some ss end).

(** ---------- the chain ---------- *)
(** numbered, linked by parent hash, each header committing to the state after its block *)
Record chain_ok (E : senv) (c : schain) : Prop := {
  co_num : forall n h, ch_hdr c n = Some h -> sh_num h = n;
  co_dense : forall n h, ch_hdr c (n + 1) = Some h -> exists p, ch_hdr c n = Some p /\ sh_parent h = sv_hash E p;
  co_root : forall n h, ch_hdr c n = Some h -> sh_root h = sv_root E (hashed E (ch_state c n));
  co_wf : forall n, wf_state (ch_state c n) }.

(** ---------- datadirs ---------- *)
Definition db_of (d : sdir) : option stabs := match dd_db d with Some db => Some (b_tabs db) | None => None end.
Definition fresh (d : sdir) : Prop := dd_db d = None /\ dd_sf d = None.
(** a datadir restored to block [b] of the chain *)
Record restored (E : senv) (c : schain) (g : sgen) (b : N) (d : sdir) : Prop := {
  re_tip : tip d = b;
  re_marker : dd_marker d = Some b;
  re_state : exists db, dd_db d = Some db /\ tb_plain (b_tabs db) = norm E (ch_state c b) /\
    tb_hashed (b_tabs db) = hashed E (norm E (ch_state c b)) /\ codes_for E (tb_codes (b_tabs db)) (norm E (ch_state c b)) /\
    b_fin db = Some b /\ b_safe db = Some b /\
    (forall n h, n <> 0 -> b < n + 256 -> n <= b -> ch_hdr c n = Some h -> bm_lookup (sv_hash E h) (b_nums db) = Some n);
  re_genesis : header_by_num d 0 = Some (g_hdr g, sv_hash E (g_hdr g));
  re_window : forall n h, n <> 0 -> b < n + 256 -> n <= b -> ch_hdr c n = Some h -> header_by_num d n = Some (h, sv_hash E h) }.
(** a datadir the importer may start from: no chain data, or genesis only *)
Definition startable (E : senv) (g : sgen) (d : sdir) : Prop :=
  fresh d \/ exists db, dd_db d = Some db /\ dd_sf d = Some [(g_hdr g, sv_hash E (g_hdr g))] /\ bm_sorted (b_nums db) /\ bm_sorted (tb_codes (b_tabs db)).
(** the pack at hand says it is the state of this block of the chain *)
Definition names_block (E : senv) (c : schain) (s : stream) (b : N) (h : shdr) : Prop :=
  exists rd, open_pack E s = inl rd /\ me_num (rd_meta rd) = b /\ me_hash (rd_meta rd) = sv_hash E h /\ ch_hdr c b = Some h.
(** what may be on disk after a crash at any point of an import into a fresh directory: chain data past genesis only under
    the floor marker of its block; tables that are genesis, empty, or exactly the state of the block *)
Definition durable_ok (E : senv) (c : schain) (g : sgen) (b : N) (d : sdir) : Prop :=
  (0 < tip d -> dd_marker d = Some b) /\
  (forall db, dd_db d = Some db -> b_tabs db = g_tabs g \/ (tb_plain (b_tabs db) = [] /\ tb_hashed (b_tabs db) = []) \/
     (tb_plain (b_tabs db) = norm E (ch_state c b) /\ tb_hashed (b_tabs db) = hashed E (norm E (ch_state c b)))).
(** every epoch's record names a block of the chain *)
Definition certifies (E : senv) (c : schain) (truth : nat -> erec) : Prop :=
  forall e, exists h, ch_hdr c (sh_num h) = Some h /\ er_state (truth e) = sv_fs E (sh_num h) (sv_hash E h).
