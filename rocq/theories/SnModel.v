(* Model of execution-state snapshots: crates/storage/src/exec_state_pack.rs (the pack: writer, reader, verify),
   crates/tn-reth/src/snapshot.rs (export walk, restorer), crates/node/src/manager/export_exec.rs 198-282,
   crates/telcoin-network-cli/src/db.rs 189-560, 755-770 (db load-state), crates/tn-reth/src/env/mod.rs 220-300, 387-402
   (the restored-state floor).
   Addresses, slots, values, hashes are numbers; the pack is the list of its records (bytes, checksums: C24), a record the
   container cannot read is [None].  Keccak, RLP, the Merkle root and contract reads are parameters. *)
From Verif Require Import Util EpochModel GasModel.
Local Open Scope N_scope.

(* the fields of ExecHeader used here *)
Record shdr := mk_shdr { sh_num : N; sh_parent : N; sh_root : N; sh_rest : N }.
(* reth Account *)
Record sacc := mk_sacc { ac_nonce : N; ac_bal : N; ac_code : option N }.
(* PlainAccountState with PlainStorageState, or HashedAccounts with HashedStorages: accounts in key order, each with its
   slots in key order.  Simplification: storage rows without an account row do not occur in this form; where the code can
   meet them (the export walk) rows are a plain list *)
Definition sstate := bmap (sacc * bmap N).
Definition codes := bmap (list N).                (* Bytecodes *)

Record senv := mk_senv {
  sv_hash : shdr -> N;                            (* hash_slow / seal_slow *)
  sv_enc : shdr -> list N;                        (* exec_state_pack.rs 216-220 encode_header *)
  sv_dec : list N -> option shdr;                 (* 223-225 decode_header *)
  sv_key : N -> N;                                (* keccak of an address or slot, key of the hashed tables *)
  sv_root : sstate -> N;                          (* StateRoot over the hashed tables *)
  sv_code : list N -> N;                          (* hash of bytecode *)
  sv_codeok : list N -> bool;                     (* Bytecode::new_raw_checked *)
  sv_epoch : sstate -> option N;                  (* get_current_epoch_info_at_header: blockHeight *)
  sv_fees : sstate -> option (N * list wentry);   (* get_worker_fee_configs_at_block *)
  sv_fs : N -> N -> N }.                          (* a BlockNumHash as one number, EpochRecord::final_state *)

Inductive serr :=
| MissingHeaders | StateRootMismatch | MetaNotFirst | TooManyHeaders | InsufficientHeaders | CorruptPack | ReadError
| HeaderRlp | OversizedStorageChunk | MissingFooter | BlockIdentityMismatch | AccountCountMismatch
| SlotOrder | MissingCode | NotTip | MissingHeader
| NonEmptyDatadir | GenesisMismatch | EmptyWindow | AtGenesis | TipMismatch | WindowGenesis | WindowShort | WindowGap | WindowLink
| AddressOrder | StorageBeforeAccount | BadBytecode | RootNotDeclared | NoHeader | RootNotHeader
| NoEntryHeader | EntryNumber | NotClosing | FeesUnreadable | NoWorkers | BadFee | FinishTip | FinishHash
| NotResumable | NoRecords | EpochZero | NotContiguous | NoCert | RecordInvalid | PackRecordMismatch | ConsensusFailed
| BelowFloor | NoState.
Definition res (A : Type) := (A + serr)%type.

(* exec_state_pack.rs 75, 83, 91 *)
Definition CHUNK : N := 65536.
Definition BLOCKHASH_ANCESTORS : N := 256.
Definition MAX_HEADER_COUNT : N := 4096.
Definition len {A} (l : list A) : N := N.of_nat (length l).

(* ---------- records: 96-213 ---------- *)
Record smeta := mk_smeta { me_root : N; me_num : N; me_hash : N; me_count : N }.
Record arec := mk_arec { ar_addr : N; ar_nonce : N; ar_bal : N; ar_code : option (list N) }.
Record sstats := mk_sstats { ss_accounts : N; ss_slots : N; ss_codes : N }.
Inductive srec := SMeta (m : smeta) | SHeader (b : list N) | SAccount (a : arec) | SStorage (l : list (N * N)) | SEnd (s : sstats).
Definition stream := list (option srec).

(* 234-238 *)
Definition check_chunk_bound (l : list (N * N)) : bool := len l <=? CHUNK.

(* ---------- the writer, 255-398; appends succeed, tallies do not wrap ---------- *)
Record swriter := mk_sw { w_recs : list srec; w_stats : sstats }.
Definition w_append (w : swriter) (r : srec) : swriter := mk_sw (w_recs w ++ [r]) (w_stats w).
(* 264-296; into an empty directory (close_epoch.rs 610-626 clears it) *)
Definition w_create (E : senv) (root : N) (headers : list shdr) : res swriter :=
  match headers with
  | [] => inr MissingHeaders
  | snap :: _ =>
    if negb (sh_root snap =? root) then inr StateRootMismatch
    else inl (mk_sw (SMeta (mk_smeta root (sh_num snap) (sv_hash E snap) (len headers mod 2 ^ 32))
                       :: map (fun h => SHeader (sv_enc E h)) headers) (mk_sstats 0 0 0))
  end.
Definition has_code (c : option (list N)) : bool := match c with Some (_ :: _) => true | _ => false end.
(* 336-354 *)
Definition w_account (w : swriter) (addr nonce bal : N) (code : option (list N)) : swriter :=
  let s := w_stats w in
  w_append (mk_sw (w_recs w) (mk_sstats (ss_accounts s + 1) (ss_slots s) (if has_code code then ss_codes s + 1 else ss_codes s)))
    (SAccount (mk_arec addr nonce bal code)).
(* 372-382 *)
Definition w_chunk (w : swriter) (l : list (N * N)) : res swriter :=
  match l with
  | [] => inl w
  | _ => if check_chunk_bound l
         then let s := w_stats w in
              inl (w_append (mk_sw (w_recs w) (mk_sstats (ss_accounts s) (ss_slots s + len l) (ss_codes s))) (SStorage l))
         else inr OversizedStorageChunk
  end.
(* 305-330: the loop over the slots of the BTreeMap *)
Fixpoint w_slots (w : swriter) (chunk slots : list (N * N)) : res swriter :=
  match slots with
  | [] => w_chunk w chunk
  | kv :: r =>
    let chunk := chunk ++ [kv] in
    if len chunk =? CHUNK
    then match w_chunk w chunk with inl w' => w_slots w' [] r | inr e => inr e end
    else w_slots w chunk r
  end.
(* GenesisAccount as the pack uses it *)
Record gacct := mk_gacct { ga_addr : N; ga_nonce : N; ga_bal : N; ga_code : option (list N); ga_storage : option (bmap N) }.
Definition w_append_account (w : swriter) (a : gacct) : res swriter :=
  let w := w_account w (ga_addr a) (ga_nonce a) (ga_bal a) (ga_code a) in
  match ga_storage a with Some st => w_slots w [] st | None => inl w end.
(* 386-390 *)
Definition w_finish (w : swriter) : list srec * sstats := (w_recs (w_append w (SEnd (w_stats w))), w_stats w).

(* ---------- the reader, 406-676 ---------- *)
Record sreader := mk_sr { rd_meta : smeta; rd_headers : list shdr; rd_rest : stream; rd_pending : option srec; rd_done : bool }.
(* 465-473 *)
Fixpoint read_headers (E : senv) (n : nat) (s : stream) : res (list shdr * stream) :=
  match n with
  | O => inl ([], s)
  | S n' =>
    match s with
    | Some (SHeader b) :: r =>
      match sv_dec E b with
      | None => inr HeaderRlp
      | Some h => match read_headers E n' r with inl (hs, r') => inl (h :: hs, r') | inr e => inr e end
      end
    | Some _ :: _ => inr CorruptPack
    | None :: _ => inr ReadError
    | [] => inr MissingHeaders
    end
  end.
(* 421-476 *)
Definition open_pack (E : senv) (s : stream) : res sreader :=
  match s with
  | Some (SMeta m) :: r =>
    if me_count m =? 0 then inr MissingHeaders
    else if MAX_HEADER_COUNT <? me_count m then inr TooManyHeaders
    else if me_count m <? N.min (me_num m) BLOCKHASH_ANCESTORS then inr InsufficientHeaders
    else match read_headers E (N.to_nat (me_count m)) r with
         | inl (hs, r') => inl (mk_sr m hs r' None false)
         | inr e => inr e
         end
  | None :: _ => inr ReadError
  | _ => inr MetaNotFirst
  end.
(* 501-513 *)
Definition vet (i : option srec) : res srec :=
  match i with
  | Some (SStorage c) => if check_chunk_bound c then inl (SStorage c) else inr OversizedStorageChunk
  | Some r => inl r
  | None => inr ReadError
  end.
Definition set_rest (rd : sreader) (s : stream) (p : option srec) (d : bool) : sreader := mk_sr (rd_meta rd) (rd_headers rd) s p d.
Definition pull (rd : sreader) : option (res srec) * sreader :=
  match rd_pending rd with
  | Some r => (Some (inl r), set_rest rd (rd_rest rd) None (rd_done rd))
  | None => match rd_rest rd with
            | [] => (None, rd)
            | i :: s => (Some (vet i), set_rest rd s None (rd_done rd))
            end
  end.
(* 545-564: the storage chunks up to the next other record, which is kept for later; nothing is pending here *)
Fixpoint gather (s : stream) (acc : list (N * N)) : (list (N * N) * srec * stream) + (serr * stream) :=
  match s with
  | [] => inr (MissingFooter, [])
  | i :: r =>
    match vet i with
    | inl (SStorage c) => gather r (acc ++ c)
    | inl other => inl (acc, other, r)
    | inr e => inr (e, r)
    end
  end.
(* 149-163: empty storage collapses to None, the others become a map *)
Definition account_of (a : arec) (slots : list (N * N)) : gacct :=
  mk_gacct (ar_addr a) (ar_nonce a) (ar_bal a) (ar_code a)
    (match slots with [] => None | _ => Some (bm_of_list slots) end).
(* 521-566 *)
Definition next_account (rd : sreader) : option (res gacct) * sreader :=
  if rd_done rd then (None, rd)
  else match pull rd with
       | (Some (inl (SAccount a)), rd') =>
         match gather (rd_rest rd') [] with
         | inl (slots, other, s) => (Some (inl (account_of a slots)), set_rest rd' s (Some other) (rd_done rd'))
         | inr (e, s) => (Some (inr e), set_rest rd' s None true)
         end
       | (Some (inl (SEnd _)), rd') => (None, set_rest rd' (rd_rest rd') (rd_pending rd') true)
       | (Some (inl _), rd') => (Some (inr CorruptPack), set_rest rd' (rd_rest rd') (rd_pending rd') true)
       | (Some (inr e), rd') => (Some (inr e), set_rest rd' (rd_rest rd') (rd_pending rd') true)
       | (None, rd') => (Some (inr MissingFooter), set_rest rd' (rd_rest rd') (rd_pending rd') true)
       end.
(* 572-598 *)
Inductive sentry := EAccount (a : arec) | EStorage (l : list (N * N)).
Definition next_entry (rd : sreader) : option (res sentry) * sreader :=
  if rd_done rd then (None, rd)
  else match pull rd with
       | (Some (inl (SAccount a)), rd') => (Some (inl (EAccount a)), rd')
       | (Some (inl (SStorage c)), rd') => (Some (inl (EStorage c)), rd')
       | (Some (inl (SEnd _)), rd') => (None, set_rest rd' (rd_rest rd') (rd_pending rd') true)
       | (Some (inl _), rd') => (Some (inr CorruptPack), set_rest rd' (rd_rest rd') (rd_pending rd') true)
       | (Some (inr e), rd') => (Some (inr e), set_rest rd' (rd_rest rd') (rd_pending rd') true)
       | (None, rd') => (Some (inr MissingFooter), set_rest rd' (rd_rest rd') (rd_pending rd') true)
       end.
(* 638-660: the walk of verify; it starts right after open, with nothing pending *)
Fixpoint verify_walk (s : stream) (saw : bool) (n : sstats) : res (sstats * sstats) :=
  match s with
  | [] => inr MissingFooter
  | i :: r =>
    match vet i with
    | inl (SAccount a) =>
      verify_walk r true (mk_sstats (ss_accounts n + 1) (ss_slots n) (if has_code (ar_code a) then ss_codes n + 1 else ss_codes n))
    | inl (SStorage c) =>
      if saw then verify_walk r saw (mk_sstats (ss_accounts n) (ss_slots n + len c) (ss_codes n)) else inr CorruptPack
    | inl (SEnd f) => inl (n, f)
    | inl _ => inr CorruptPack
    | inr e => inr e
    end
  end.
(* 619-675; the report is the header count and the tallies *)
Definition verify_pack (E : senv) (s : stream) : res (N * sstats) :=
  match open_pack E s with
  | inr e => inr e
  | inl rd =>
    match rd_headers rd with
    | [] => inr MissingHeaders     (* open_pack never returns this *)
    | snap :: _ =>
      if negb (sh_root snap =? me_root (rd_meta rd)) then inr StateRootMismatch
      else if negb (sh_num snap =? me_num (rd_meta rd)) || negb (sv_hash E snap =? me_hash (rd_meta rd)) then inr BlockIdentityMismatch
      else match verify_walk (rd_rest rd) false (mk_sstats 0 0 0) with
           | inr e => inr e
           | inl (n, f) => if ss_accounts f =? ss_accounts n then inl (me_count (rd_meta rd), n) else inr AccountCountMismatch
           end
    end
  end.

(* ---------- the export walk, snapshot.rs 294-373; cursor reads succeed ---------- *)
Definition row := (N * N * N)%type.                (* address, slot, value *)
(* snapshot.rs 327-373: [chunk] the slots kept and not yet flushed, [prev] the last slot kept *)
Fixpoint stream_slots (addr : N) (rows : list row) (chunk : list (N * N)) (prev : option N) (w : swriter) : res (list row * swriter) :=
  let flush := match chunk with [] => inl (rows, w) | _ => match w_chunk w chunk with inl w' => inl (rows, w') | inr e => inr e end end in
  match rows with
  | [] => flush
  | (a, k, v) :: r =>
    if addr <? a then flush
    else if (a =? addr) && negb (v =? 0)
    then if match prev with None => true | Some p => p <? k end
         then let chunk := chunk ++ [(k, v)] in
              if len chunk =? CHUNK
              then match w_chunk w chunk with inl w' => stream_slots addr r [] (Some k) w' | inr e => inr e end
              else stream_slots addr r chunk (Some k) w
         else inr SlotOrder
    else stream_slots addr r chunk prev w
  end.
(* 294-317 with resolve_code of 215-228 *)
Definition resolve_code (E : senv) (cs : codes) (a : sacc) : res (option (list N)) :=
  match ac_code a with
  | None => inl None
  | Some h => if h =? sv_code E [] then inl None
              else match bm_lookup h cs with Some c => inl (Some c) | None => inr MissingCode end
  end.
Fixpoint export_plain (E : senv) (cs : codes) (accts : list (N * sacc)) (rows : list row) (w : swriter) : res swriter :=
  match accts with
  | [] => inl w
  | (addr, a) :: t =>
    match resolve_code E cs a with
    | inr e => inr e
    | inl code =>
      match stream_slots addr rows [] None (w_account w addr (ac_nonce a) (ac_bal a) code) with
      | inr e => inr e
      | inl (rows', w') => export_plain E cs t rows' w'
      end
    end
  end.
(* a pinned transaction: the tables it sees *)
Record sview := mk_view { vw_accts : list (N * sacc); vw_rows : list row; vw_codes : codes; vw_nums : bmap N; vw_last : option N }.
(* 172-232 *)
Definition export_state_pack (E : senv) (v : sview) (root : N) (headers : list shdr) : res (list srec * sstats) :=
  match w_create E root headers with
  | inr e => inr e
  | inl w => match export_plain E (vw_codes v) (vw_accts v) (vw_rows v) w with inr e => inr e | inl w' => inl (w_finish w') end
  end.
(* 134-147 *)
Definition verify_tip (v : sview) (num hash : N) : bool :=
  match bm_lookup hash (vw_nums v) with
  | Some n => (n =? num) && match vw_last v with Some l => l =? num | None => false end
  | None => false
  end.

(* ---------- check_entry_readiness, snapshot.rs 1089-1152 ---------- *)
Definition fee_ok (e : wentry) : bool := match entry_fee e with Some _ => true | None => false end.
Definition check_ready (E : senv) (st : sstate) (b : N) : res unit :=
  match sv_epoch E st with
  | None => inr FeesUnreadable
  | Some h =>
    if negb (h =? b + 1) then inr NotClosing
    else match sv_fees E st with
         | None => inr FeesUnreadable
         | Some (n, es) => if n =? 0 then inr NoWorkers else if forallb fee_ok es then inl tt else inr BadFee
         end
  end.

(* ---------- export_exec.rs 198-282; the chain as this node has it: canonical headers by number and the state at each ---------- *)
Record schain := mk_chain { ch_hdr : N -> option shdr; ch_state : N -> sstate }.
(* 268-282: anchor-1 down to lowest *)
Fixpoint ancestors (c : schain) (n : nat) (num : N) : res (list shdr) :=
  match n with
  | O => inl []
  | S n' => match ch_hdr c num with
            | None => inr MissingHeader
            | Some h => match ancestors c n' (num - 1) with inl t => inl (h :: t) | inr e => inr e end
            end
  end.
Definition gather_headers (c : schain) (anchor : shdr) : res (list shdr) :=
  let lowest := N.max (sh_num anchor - BLOCKHASH_ANCESTORS) 1 in
  match ancestors c (N.to_nat (sh_num anchor - lowest)) (sh_num anchor - 1) with
  | inl t => inl (anchor :: t)
  | inr e => inr e
  end.
(* 198-264: one pinned view per attempt; inl None is a skipped export *)
Definition MAX_PIN_ATTEMPTS : nat := 8.
Fixpoint export_attempts (E : senv) (c : schain) (num hash : N) (views : list sview) : res (option (list srec * sstats)) :=
  match views with
  | [] => inr NotTip
  | v :: vs =>
    if negb (verify_tip v num hash) then export_attempts E c num hash vs
    else match ch_hdr c num with
         | None => inr MissingHeader
         | Some anchor =>
           match gather_headers c anchor with
           | inr e => inr e
           | inl headers =>
             match check_ready E (ch_state c num) (sh_num anchor) with
             | inr _ => inl None
             | inl _ => match export_state_pack E v (sh_root anchor) headers with inl p => inl (Some p) | inr e => inr e end
             end
           end
         end
  end.
Definition export_once (E : senv) (c : schain) (num hash : N) (views : list sview) : res (option (list srec * sstats)) :=
  export_attempts E c num hash (firstn MAX_PIN_ATTEMPTS views).

(* ---------- the datadir a snapshot is restored into ---------- *)
(* Simplifications: the body segments, stage checkpoints and history indices are left out; a committed transaction or file
   is one durable step; the initialisation of genesis is one durable step *)
Record stabs := mk_tabs { tb_plain : sstate; tb_hashed : sstate; tb_codes : codes }.
Record sdb := mk_sdb { b_tabs : stabs; b_nums : bmap N; b_fin : option N; b_safe : option N }.
Record sdir := mk_sdir {
  dd_marker : option N;                            (* the restored-state floor file *)
  dd_db : option sdb;                              (* db/, None: the directory does not exist *)
  dd_sf : option (list (shdr * N));                (* static_files/: headers with their hashes, by number from genesis *)
  dd_cons : option N }.                            (* consensus-db/: the epoch its records and pack end at *)
Record sgen := mk_gen { g_hdr : shdr; g_tabs : stabs }.   (* the local chain spec *)

(* helpers.rs 259-261 last_block_number: the height of the Headers static file *)
Definition tip (d : sdir) : N := match dd_sf d with Some l => len l - 1 | None => 0 end.
(* RethEnv::new_database and init_genesis: creates what is missing, refuses another genesis or half a database *)
Definition env_new (E : senv) (g : sgen) (d : sdir) : list sdir * res sdir :=
  match dd_db d, dd_sf d with
  | None, None =>
    let d' := mk_sdir (dd_marker d) (Some (mk_sdb (g_tabs g) (bm_insert (sv_hash E (g_hdr g)) 0 []) None None))
                (Some [(g_hdr g, sv_hash E (g_hdr g))]) (dd_cons d) in ([d'], inl d')
  | Some _, Some ((_, h) :: _) => if h =? sv_hash E (g_hdr g) then ([], inl d) else ([], inr GenesisMismatch)
  | _, _ => ([], inr GenesisMismatch)
  end.
(* snapshot.rs 482-501 *)
Definition restorer_open (E : senv) (g : sgen) (d : sdir) : list sdir * res sdir :=
  match env_new E g d with
  | (tr, inr e) => (tr, inr e)
  | (tr, inl d') => if 0 <? tip d' then (tr, inr NonEmptyDatadir) else (tr, inl d')
  end.
(* 576-585 and 592-604: a sealed header is a header with its hash *)
Fixpoint contiguous (n : N) (w : list (shdr * N)) : bool :=
  match w with [] => true | (h, _) :: r => (sh_num h =? n) && contiguous (n + 1) r end.
Fixpoint linked (w : list (shdr * N)) : bool :=
  match w with
  | (_, ph) :: (((h, _) :: _) as r) => (sh_parent h =? ph) && linked r
  | _ => true
  end.
(* 637-650 header_at, the dummies *)
Definition dummy (n : N) : shdr * N := (mk_shdr n 0 0 0, 0).
Definition header_at (start b : N) (w : list (shdr * N)) (n : N) : shdr * N :=
  if (start <=? n) && (n <=? b) then nth (N.to_nat (n - start)) w (dummy n) else dummy n.
Fixpoint scaffold_heads (start b : N) (w : list (shdr * N)) (n : N) (count : nat) : list (shdr * N) :=
  match count with O => [] | S c => header_at start b w n :: scaffold_heads start b w (n + 1) c end.
(* 534-724: marker, then static files, then the database *)
Definition import_chain_scaffold (E : senv) (d : sdir) (w : list (shdr * N)) (num hash : N) : list sdir * res sdir :=
  match w, rev w with
  | (h0, _) :: _, (hb, hbh) :: _ =>
    if num =? 0 then ([], inr AtGenesis)
    else if negb (sh_num hb =? num) || negb (hbh =? hash) then ([], inr TipMismatch)
    else if sh_num h0 =? 0 then ([], inr WindowGenesis)
    else if negb (sh_num h0 <=? N.max (num - (BLOCKHASH_ANCESTORS - 1)) 1) then ([], inr WindowShort)
    else if negb (contiguous (sh_num h0) w) then ([], inr WindowGap)
    else if negb (linked w) then ([], inr WindowLink)
    else
      match dd_db d, dd_sf d with
      | Some db, Some heads =>
        let d1 := mk_sdir (Some num) (dd_db d) (dd_sf d) (dd_cons d) in
        let heads' := heads ++ scaffold_heads (sh_num h0) num w 1 (N.to_nat (num - 1)) ++ [(hb, hbh)] in
        let d2 := mk_sdir (dd_marker d1) (dd_db d) (Some heads') (dd_cons d) in
        let nums := fold_left (fun m e => bm_insert (snd e) (sh_num (fst e)) m) w (bm_insert hbh num (b_nums db)) in
        let d3 := mk_sdir (dd_marker d2) (Some (mk_sdb (mk_tabs [] [] (tb_codes (b_tabs db))) nums (b_fin db) (b_safe db)))
                    (dd_sf d2) (dd_cons d) in
        ([d1; d2; d3], inl d3)
      | _, _ => ([], inr NoHeader)
      end
  | _, _ => ([], inr EmptyWindow)
  end.
(* reth's upserts: a zero value removes the slot (StateWriter::write_state_changes, HashingWriter) *)
Definition bm_del (k : N) (m : bmap N) : bmap N := filter (fun e => negb (fst e =? k)) m.
Definition put_slot (m : bmap N) (kv : N * N) : bmap N := if snd kv =? 0 then bm_del (fst kv) m else bm_insert (fst kv) (snd kv) m.
Definition put_acc (a : N) (acc : sacc) (st : sstate) : sstate :=
  bm_insert a (acc, match bm_lookup a st with Some (_, ss) => ss | None => [] end) st.
Definition put_slots (a : N) (l : list (N * N)) (st : sstate) : sstate :=
  match bm_lookup a st with
  | Some (acc, ss) => bm_insert a (acc, fold_left put_slot l ss) st
  | None => st
  end.
(* 965-1000 write_account_header *)
Definition write_account_header (E : senv) (t : stabs) (a : arec) : res stabs :=
  match ar_code a with
  | Some ((_ :: _) as c) =>
    if sv_codeok E c
    then let acc := mk_sacc (ar_nonce a) (ar_bal a) (Some (sv_code E c)) in
         inl (mk_tabs (put_acc (ar_addr a) acc (tb_plain t)) (put_acc (sv_key E (ar_addr a)) acc (tb_hashed t))
                (bm_insert (sv_code E c) c (tb_codes t)))
    else inr BadBytecode
  | _ => let acc := mk_sacc (ar_nonce a) (ar_bal a) None in
         inl (mk_tabs (put_acc (ar_addr a) acc (tb_plain t)) (put_acc (sv_key E (ar_addr a)) acc (tb_hashed t)) (tb_codes t))
  end.
(* 1013-1055 write_storage_chunk *)
Definition write_storage_chunk (E : senv) (t : stabs) (addr : N) (l : list (N * N)) : stabs :=
  mk_tabs (put_slots addr l (tb_plain t))
    (put_slots (sv_key E addr) (map (fun kv => (sv_key E (fst kv), snd kv)) l) (tb_hashed t)) (tb_codes t).
(* 803-843; the loop runs until next_entry says None, at most once per record and once more *)
Fixpoint import_loop (E : senv) (fuel : nat) (rd : sreader) (cur prev : option N) (t : stabs) : res stabs :=
  match fuel with
  | O => inl t
  | S fuel' =>
    match next_entry rd with
    | (None, _) => inl t
    | (Some (inr e), _) => inr e
    | (Some (inl (EAccount a)), rd') =>
      if match prev with Some p => ar_addr a <=? p | None => false end then inr AddressOrder
      else match write_account_header E t a with
           | inr e => inr e
           | inl t' => import_loop E fuel' rd' (Some (ar_addr a)) (Some (ar_addr a)) t'
           end
    | (Some (inl (EStorage l)), rd') =>
      match cur with
      | None => inr StorageBeforeAccount
      | Some a => import_loop E fuel' rd' cur prev (write_storage_chunk E t a l)
      end
    end
  end.
Definition rd_fuel (rd : sreader) : nat := S (S (length (rd_rest rd))).
(* sealed_header_by_number *)
Definition header_by_num (d : sdir) (n : N) : option (shdr * N) :=
  match dd_sf d with Some l => nth_error l (N.to_nat n) | None => None end.
(* 779-890: one database transaction *)
Definition import_state (E : senv) (d : sdir) (rd : sreader) : list sdir * res (sdir * N) :=
  match dd_db d with
  | None => ([], inr NoState)
  | Some db =>
    match import_loop E (rd_fuel rd) rd None None (b_tabs db) with
    | inr e => ([], inr e)
    | inl t =>
      let root := sv_root E (tb_hashed t) in
      if negb (root =? me_root (rd_meta rd)) then ([], inr RootNotDeclared)
      else match header_by_num d (me_num (rd_meta rd)) with
           | None => ([], inr NoHeader)
           | Some (hb, _) =>
             if negb (sh_root hb =? root) then ([], inr RootNotHeader)
             else let d' := mk_sdir (dd_marker d) (Some (mk_sdb t (b_nums db) (b_fin db) (b_safe db))) (dd_sf d) (dd_cons d) in
                  ([d'], inl (d', root))
           end
    end
  end.
(* 901-919: the header by its hash, then the check on the state just imported *)
Definition entry_readiness (E : senv) (d : sdir) (num hash : N) : res unit :=
  match dd_db d with
  | None => inr NoEntryHeader
  | Some db =>
    match bm_lookup hash (b_nums db) with
    | None => inr NoEntryHeader
    | Some n => match header_by_num d n with
                | None => inr NoEntryHeader
                | Some (h, _) => if negb (sh_num h =? num) then inr EntryNumber
                                 else check_ready E (tb_plain (b_tabs db)) num
                end
    end
  end.
(* 928-954 *)
Definition finish (d : sdir) (num hash : N) : list sdir * res sdir :=
  match dd_db d with
  | None => ([], inr NoState)
  | Some db =>
    let d' := mk_sdir (dd_marker d) (Some (mk_sdb (b_tabs db) (b_nums db) (Some num) (Some num))) (dd_sf d) (dd_cons d) in
    if negb (tip d' =? num) then ([d'], inr FinishTip)
    else match header_by_num d' num with
         | None => ([d'], inr NoHeader)
         | Some (_, h) => if h =? hash then ([d'], inl d') else ([d'], inr FinishHash)
         end
  end.

(* ---------- db load-state, telcoin-network-cli/src/db.rs ---------- *)
(* 760-766: sort_by_key is stable *)
Fixpoint ins_num (h : shdr * N) (l : list (shdr * N)) : list (shdr * N) :=
  match l with
  | [] => [h]
  | x :: r => if sh_num (fst h) <? sh_num (fst x) then h :: l else x :: ins_num h r
  end.
Definition scaffold_window (E : senv) (hs : list shdr) : list (shdr * N) :=
  filter (fun h => negb (sh_num (fst h) =? 0))
    (fold_left (fun l h => ins_num (h, sv_hash E h) l) hs []).
(* 534-567 *)
Definition restore_pack (E : senv) (g : sgen) (d : sdir) (s : stream) : list sdir * res (sdir * N) :=
  match open_pack E s with
  | inr e => ([], inr e)
  | inl rd =>
    let num := me_num (rd_meta rd) in
    let hash := me_hash (rd_meta rd) in
    match restorer_open E g d with
    | (t1, inr e) => (t1, inr e)
    | (t1, inl d1) =>
      match import_chain_scaffold E d1 (scaffold_window E (rd_headers rd)) num hash with
      | (t2, inr e) => (t1 ++ t2, inr e)
      | (t2, inl d2) =>
        match import_state E d2 rd with
        | (t3, inr e) => (t1 ++ t2 ++ t3, inr e)
        | (t3, inl (d3, root)) =>
          match entry_readiness E d3 num hash with
          | inr e => (t1 ++ t2 ++ t3, inr e)
          | inl _ => match finish d3 num hash with
                     | (t4, inr e) => (t1 ++ t2 ++ t3 ++ t4, inr e)
                     | (t4, inl d4) => (t1 ++ t2 ++ t3 ++ t4, inl (d4, root))
                     end
          end
        end
      end
    end
  end.
(* a bundle: the exec-state pack and which of the three other files exist, with the records and certificates read *)
Record bundle := mk_bundle { bu_state : stream; bu_cons : bool; bu_recs : option (list erec); bu_certs : option (list ecert) }.
(* 365-397 *)
Definition reject_non_resumable (b : bundle) : res (list erec * list ecert) :=
  match bu_cons b, bu_recs b, bu_certs b with
  | true, Some rs, Some cs =>
    match rev rs with
    | [] => inr NoRecords
    | r :: _ => if (er_epoch r =? 0)%nat then inr EpochZero else inl (rs, cs)
    end
  | _, _, _ => inr NotResumable
  end.
(* 402-407: a HashMap, the last certificate for a digest wins *)
Definition cert_map (cs : list ecert) : list (N * ecert) := rev (map (fun c => (ec_hash c, c)) cs).
(* 413-426 *)
Fixpoint contig_records (i : nat) (rs : list erec) : bool :=
  match rs with [] => true | r :: t => (er_epoch r =? i)%nat && contig_records (S i) t end.
(* 452-497 *)
Fixpoint chain_fold (EE : eenv) (genesis : list N) (cm : list (N * ecert)) (prev : option erec) (i : nat) (rs : list erec) : res (option erec) :=
  match rs with
  | [] => inl prev
  | r :: t =>
    let '(parent, com) := match prev with None => (DEFAULT_DIGEST, genesis) | Some p => (ee_dig EE p, uniq (er_next p)) end in
    match cget cm (ee_dig EE r) with
    | None => inr NoCert
    | Some c => match validate_against_anchor EE i r c parent com with
                | EValid => chain_fold EE genesis cm (Some r) (S i) t
                | _ => inr RecordInvalid
                end
    end
  end.
Definition verify_chain (EE : eenv) (genesis : list N) (rs : list erec) (cm : list (N * ecert)) : res erec :=
  if negb (contig_records 0 rs) then inr NotContiguous
  else match chain_fold EE genesis cm None 0 rs with
       | inr e => inr e
       | inl None => inr NoRecords
       | inl (Some r) => inl r
       end.
(* 510-527 *)
Definition check_matches_record (E : senv) (s : stream) (r : erec) : res unit :=
  match open_pack E s with
  | inr e => inr e
  | inl rd => if sv_fs E (me_num (rd_meta rd)) (me_hash (rd_meta rd)) =? er_state r then inl tt else inr PackRecordMismatch
  end.
Definition preflight (E : senv) (EE : eenv) (genesis : list N) (b : bundle) : res erec :=
  match reject_non_resumable b with
  | inr e => inr e
  | inl (rs, cs) =>
    match verify_chain EE genesis rs (cert_map cs) with
    | inr e => inr e
    | inl r => match check_matches_record E (bu_state b) r with inr e => inr e | inl _ => inl r end
    end
  end.
(* 328-347: the directories this import created, then the marker; removals succeed *)
Definition is_some {A} (o : option A) : bool := match o with Some _ => true | None => false end.
Definition clean (pre d : sdir) : list sdir :=
  let d1 := if is_some (dd_db pre) then d else mk_sdir (dd_marker d) None (dd_sf d) (dd_cons d) in
  let d2 := if is_some (dd_sf pre) then d1 else mk_sdir (dd_marker d1) (dd_db d1) None (dd_cons d1) in
  let d3 := if is_some (dd_cons pre) then d2 else mk_sdir (dd_marker d2) (dd_db d2) (dd_sf d2) None in
  [d1; d2; d3; mk_sdir None (dd_db d3) (dd_sf d3) (dd_cons d3)].
(* 189-303; [cons_ok]: whether restore_consensus_and_records (C32, C43) succeeds, in one durable step either way *)
Definition load_state (E : senv) (EE : eenv) (genesis : list N) (g : sgen) (d : sdir) (b : bundle) (cons_ok : bool) :
    list sdir * res (N * N) :=
  match preflight E EE genesis b with
  | inr e => ([], inr e)
  | inl r =>
    match restore_pack E g d (bu_state b) with
    | (t, inr e) => (t ++ clean d (last t d), inr e)
    | (t, inl (d', root)) =>
      let d2 := mk_sdir (dd_marker d') (dd_db d') (dd_sf d') (Some (N.of_nat (er_epoch r))) in
      if cons_ok then (t ++ [d2], inl (er_state r, root))
      else (t ++ [d2] ++ clean d d2, inr ConsensusFailed)
    end
  end.

(* ---------- pinned reads, env/mod.rs 387-402 ---------- *)
(* state_by_block_hash on a datadir no block was executed in since: the tip's state, "never written" for an older block *)
Definition provider_state (d : sdir) (hash : N) : res sstate :=
  match dd_db d with
  | None => inr NoState
  | Some db => match bm_lookup hash (b_nums db) with
               | None => inr NoState
               | Some n => if n =? tip d then inl (tb_plain (b_tabs db)) else inl []
               end
  end.
(* the floor is read once, when the environment is built *)
Definition read_only_state (floor : option N) (d : sdir) (num hash : N) : res sstate :=
  match floor with
  | Some f => if num <? f then inr BelowFloor else provider_state d hash
  | None => provider_state d hash
  end.
