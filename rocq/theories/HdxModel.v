(* Model of the digest index: crates/storage/src/archive/digest_index/{index.rs, bucket_iter.rs, bloom.rs,
   odx_header.rs}.  Keys are byte strings, positions are numbers.  A bucket is kept as a record (overflow position,
   elements) instead of its 1296-byte image; the checksum of an image is the constructor of the cell that holds it.
   Not modelled: 32/64-bit overflow of counters, failing writes, header fields other than those below. *)
From Verif Require Import Util.

Definition key := list N.
Definition pos := N.
Definition elem := (key * pos)%type.

Fixpoint keqb (a b : key) : bool :=
  match a, b with
  | [], [] => true
  | x :: a', y :: b' => N.eqb x y && keqb a' b'
  | _, _ => false
  end.

(* index.rs 690-712, bucket_iter.rs 36-57: bytes 0..8 overflow position, 8..12 element count, then the elements *)
Record bucket := mk_bucket { b_ovf : nat; b_elems : list elem }.
Definition bucket0 := mk_bucket 0 [].

(* what reading one bucket-sized slot of a file gives: index.rs 498-523, bucket_iter.rs 104-131 *)
Inductive cell := CGood (b : bucket) | CCrc | CIo.

(* constants of index.rs 262-276 and bloom.rs 11-29, and the parameters the theorems quantify over *)
Record hcfg := mk_hcfg {
  hc_elems : nat;             (* BUCKET_ELEMENTS = 32 *)
  hc_init : nat;              (* INITIAL_BUCKETS = 1000 *)
  hc_bsize : nat;             (* BUCKET_SIZE = 16 + 40 * 32 *)
  hc_cached : nat;            (* CACHED_BUCKETS = 400000 *)
  hc_bloom : nat;             (* BLOOM_SIZE_BYTES = 2 MiB *)
  hc_bits : nat;              (* BLOOM_BITS_PER_ITEM = 8 *)
  hc_thresh : nat -> nat;     (* index.rs 436: (capacity as f32 * load_factor) as u64 *)
  hc_hash : key -> N;         (* hasher_builder.hash_one *)
  hc_drain : list (nat * bucket) -> list (nat * bucket) (* order in which HashMap::drain yields its entries *)
}.

(* ---------- association lists (Rust HashMap) ---------- *)
Fixpoint aget {A} (l : list (nat * A)) (k : nat) : option A :=
  match l with [] => None | (k', v) :: r => if Nat.eqb k' k then Some v else aget r k end.
Definition arem {A} (l : list (nat * A)) (k : nat) : list (nat * A) := filter (fun e => negb (Nat.eqb (fst e) k)) l.
Definition aput {A} (l : list (nat * A)) (k : nat) (v : A) : list (nat * A) := (k, v) :: arem l k.

(* ---------- bloom.rs ---------- *)
(* bloom.rs 24: BLOOM_SIZE_BITS.ilog2().div_ceil(8) *)
Definition item_bytes (c : hcfg) : nat :=
  (Nat.log2 (hc_bloom c * 8) + 7) / 8.

(* bloom.rs 64-70, 82-88: index = (index << 8) | byte, ITEM_BYTES times, then & MASK *)
Definition bl_index (c : hcfg) (k : key) (i : nat) : nat :=
  let bs := firstn (item_bytes c) (skipn (i * item_bytes c) k) in
  N.to_nat (N.land (fold_left (fun acc b => N.lor (N.shiftl acc 8) b) bs 0%N) (N.of_nat (hc_bloom c * 8 - 1))).

Definition bl_byte (c : hcfg) (ix : nat) : nat := hc_bloom c - 1 - ix / 8.
Definition bl_mask (ix : nat) : N := N.shiftl 1 (N.of_nat (ix mod 8)).

Fixpoint upd {A} (n : nat) (f : A -> A) (l : list A) : list A :=
  match l, n with
  | [], _ => []
  | x :: r, 0 => f x :: r
  | x :: r, S n' => x :: upd n' f r
  end.

(* bloom.rs 78-91 *)
Definition bl_accrue (c : hcfg) (bl : list N) (k : key) : list N :=
  fold_left (fun bl i => let ix := bl_index c k i in upd (bl_byte c ix) (fun x => N.lor x (bl_mask ix)) bl)
            (seq 0 (hc_bits c)) bl.

(* bloom.rs 59-76 *)
Definition bl_contains (c : hcfg) (bl : list N) (k : key) : bool :=
  forallb (fun i => let ix := bl_index c k i in
                    negb (N.eqb (N.land (nth (bl_byte c ix) bl 0%N) (bl_mask ix)) 0))
          (seq 0 (hc_bits c)).

(* ---------- files ---------- *)
(* index.hdx: header, bloom, buckets (a slot never written reads as a failed read) *)
Record hfile := mk_hfile {
  f_buckets : nat; f_values : nat; f_dlen : nat; f_bloom : list N; f_cells : list (nat * cell) }.
(* index.odx: append-only; records by byte offset, and the file length *)
Record ofile := mk_ofile { o_recs : list (nat * cell); o_end : nat }.

Definition ODX_HEADER := 28. (* odx_header.rs 15: MIN_HEADER_SIZE, written when the file is created *)

Definition f_cell (f : hfile) (b : nat) : cell := match aget (f_cells f) b with Some x => x | None => CIo end.
Definition o_cell (o : ofile) (p : nat) : cell := match aget (o_recs o) p with Some x => x | None => CIo end.

(* ---------- the open index: index.rs 243-259 ---------- *)
Record hdx := mk_hdx {
  hx_buckets : nat; hx_values : nat; hx_dlen : nat;      (* header *)
  hx_mod : nat; hx_cap : nat;
  hx_clean : list (nat * bucket); hx_fifo : list nat; hx_dirty : list (nat * bucket);
  hx_bloom : list N; hx_ro : bool; hx_synced : bool;
  hx_file : hfile;                                       (* index.hdx as the file system has it *)
  hx_odx : ofile;
  hx_osafe : nat }.                                      (* length of index.odx at its last sync_all *)

Definition npow2 (n : nat) : nat := 2 ^ Nat.log2_up n.   (* u32::next_power_of_two *)

Definition with_caches (s : hdx) clean fifo dirty : hdx :=
  mk_hdx (hx_buckets s) (hx_values s) (hx_dlen s) (hx_mod s) (hx_cap s) clean fifo dirty (hx_bloom s) (hx_ro s)
         (hx_synced s) (hx_file s) (hx_odx s) (hx_osafe s).
Definition with_odx (s : hdx) o : hdx :=
  mk_hdx (hx_buckets s) (hx_values s) (hx_dlen s) (hx_mod s) (hx_cap s) (hx_clean s) (hx_fifo s) (hx_dirty s)
         (hx_bloom s) (hx_ro s) (hx_synced s) (hx_file s) o (hx_osafe s).
Definition with_values (s : hdx) v : hdx :=
  mk_hdx (hx_buckets s) v (hx_dlen s) (hx_mod s) (hx_cap s) (hx_clean s) (hx_fifo s) (hx_dirty s)
         (hx_bloom s) (hx_ro s) (hx_synced s) (hx_file s) (hx_odx s) (hx_osafe s).
Definition with_geom (s : hdx) bk md : hdx :=
  mk_hdx bk (hx_values s) (hx_dlen s) md (hx_cap s) (hx_clean s) (hx_fifo s) (hx_dirty s)
         (hx_bloom s) (hx_ro s) (hx_synced s) (hx_file s) (hx_odx s) (hx_osafe s).
Definition with_cap (s : hdx) cap : hdx :=
  mk_hdx (hx_buckets s) (hx_values s) (hx_dlen s) (hx_mod s) cap (hx_clean s) (hx_fifo s) (hx_dirty s)
         (hx_bloom s) (hx_ro s) (hx_synced s) (hx_file s) (hx_odx s) (hx_osafe s).
Definition with_bloom (s : hdx) bl : hdx :=
  mk_hdx (hx_buckets s) (hx_values s) (hx_dlen s) (hx_mod s) (hx_cap s) (hx_clean s) (hx_fifo s) (hx_dirty s)
         bl (hx_ro s) (hx_synced s) (hx_file s) (hx_odx s) (hx_osafe s).
Definition with_synced (s : hdx) b : hdx :=
  mk_hdx (hx_buckets s) (hx_values s) (hx_dlen s) (hx_mod s) (hx_cap s) (hx_clean s) (hx_fifo s) (hx_dirty s)
         (hx_bloom s) (hx_ro s) b (hx_file s) (hx_odx s) (hx_osafe s).
Definition with_dlen (s : hdx) n : hdx :=
  mk_hdx (hx_buckets s) (hx_values s) n (hx_mod s) (hx_cap s) (hx_clean s) (hx_fifo s) (hx_dirty s)
         (hx_bloom s) (hx_ro s) (hx_synced s) (hx_file s) (hx_odx s) (hx_osafe s).
Definition with_file (s : hdx) f : hdx :=
  mk_hdx (hx_buckets s) (hx_values s) (hx_dlen s) (hx_mod s) (hx_cap s) (hx_clean s) (hx_fifo s) (hx_dirty s)
         (hx_bloom s) (hx_ro s) (hx_synced s) f (hx_odx s) (hx_osafe s).
Definition with_osafe (s : hdx) n : hdx :=
  mk_hdx (hx_buckets s) (hx_values s) (hx_dlen s) (hx_mod s) (hx_cap s) (hx_clean s) (hx_fifo s) (hx_dirty s)
         (hx_bloom s) (hx_ro s) (hx_synced s) (hx_file s) (hx_odx s) n.

Inductive herr := HReadOnly | HCrc | HIo | HNotFound.

(* index.rs 306-334: a new index.hdx with zeroed bloom and INITIAL_BUCKETS empty buckets.  Simplification: creation is
   taken to be durable. *)
Definition fresh_file (c : hcfg) (dlen0 : nat) : hfile :=
  mk_hfile (hc_init c) 0 dlen0 (repeat 0%N (hc_bloom c)) (map (fun b => (b, CGood bucket0)) (seq 0 (hc_init c))).
Definition fresh_odx : ofile := mk_ofile [] ODX_HEADER.

(* index.rs 335-390 (existing file): header and bloom are read, the caches start empty *)
Definition open_hdx (c : hcfg) (f : hfile) (o : ofile) (osafe : nat) (ro : bool) : hdx :=
  mk_hdx (f_buckets f) (f_values f) (f_dlen f) (npow2 (f_buckets f + 1)) (f_buckets f * hc_elems c)
         [] [] [] (f_bloom f) ro true f o osafe.

(* index.rs 417-429: evict while the fifo is full *)
Fixpoint evict (cached : nat) (clean : list (nat * bucket)) (fifo : list nat) : list (nat * bucket) * list nat :=
  match fifo with
  | [] => (clean, [])
  | b :: r => if cached <=? length fifo then evict cached (arem clean b) r else (clean, fifo)
  end.
Definition add_clean (c : hcfg) (s : hdx) (b : nat) (x : bucket) : hdx :=
  let '(cl, ff) := evict (hc_cached c) (hx_clean s) (hx_fifo s) in
  with_caches s (aput cl b x) (ff ++ [b]) (hx_dirty s).

(* index.rs 487-496 *)
Definition remove_cache (s : hdx) (b : nat) : option bucket * hdx :=
  match aget (hx_dirty s) b with
  | Some x => (Some x, with_caches s (hx_clean s) (hx_fifo s) (arem (hx_dirty s) b))
  | None => match aget (hx_clean s) b with
            | Some x => (Some x, with_caches s (arem (hx_clean s) b) (hx_fifo s) (hx_dirty s))
            | None => (None, s)
            end
  end.
(* index.rs 498-523 *)
Definition remove_bucket (s : hdx) (b : nat) : (bucket + herr) * hdx :=
  match remove_cache s b with
  | (Some x, s') => (inl x, s')
  | (None, s') => match f_cell (hx_file s') b with
                  | CGood x => (inl x, s') | CCrc => (inr HCrc, s') | CIo => (inr HIo, s') end
  end.

(* index.rs 545-558 *)
Definition hash_to_bucket (c : hcfg) (modulus buckets : nat) (k : key) : nat :=
  let b := N.to_nat (hc_hash c k mod N.of_nat modulus) in
  if buckets <=? b then b - modulus / 2 else b.

(* how walking the overflow chain ended: at its end, at a bad checksum, or at a failed read (bucket_iter.rs 92-131) *)
Inductive wend := WDone | WCrc | WIo.
(* bucket_iter.rs 134-163: all elements of the overflow records from offset p on, newest record first *)
Fixpoint walk (o : ofile) (fuel : nat) (p : nat) : list elem * wend :=
  match fuel with
  | 0 => ([], WDone)
  | S fuel' =>
    if p =? 0 then ([], WDone) else
    match o_cell o p with
    | CIo => ([], WIo)          (* .ok()? : iteration ends with no failure flag *)
    | CCrc => ([], WCrc)
    | CGood b =>
        (* a link must point strictly backwards *)
        if negb (b_ovf b =? 0) && (p <=? b_ovf b) then ([], WCrc)
        else let '(l, w) := walk o fuel' (b_ovf b) in (b_elems b ++ l, w)
    end
  end.
(* everything next_bucket_element yields for a bucket, in order.  Simplification: the chain is read in one go; index.rs
   interleaves reads with appends at the end of the log, which do not change earlier records *)
Definition bucket_items (o : ofile) (x : bucket) : list elem * wend :=
  let '(l, w) := walk o (S (b_ovf x)) (b_ovf x) in (b_elems x ++ l, w).

Definition find_key (k : key) (l : list elem) : option pos := option_map snd (find (fun e => keqb (fst e) k) l).

Fixpoint set_first (k : key) (p : pos) (l : list elem) : list elem :=
  match l with [] => [] | (k', p') :: r => if keqb k' k then (k', p) :: r else (k', p') :: set_first k p r end.

(* index.rs 691-755; the flag says whether inc_values applies *)
Definition save_buf (c : hcfg) (o : ofile) (x : bucket) (k : key) (p : pos) : bucket * ofile * bool :=
  if hc_elems c <=? length (b_elems x) then
    let at_ := o_end o in
    (mk_bucket at_ [(k, p)], mk_ofile (aput (o_recs o) at_ (CGood x)) (at_ + hc_bsize c), true)
  else if length (b_elems x) =? 0 then (mk_bucket (b_ovf x) [(k, p)], o, true)
  else if existsb (fun e => keqb (fst e) k) (b_elems x)
  then (mk_bucket (b_ovf x) (set_first k p (b_elems x)), o, false)
  else (mk_bucket (b_ovf x) (b_elems x ++ [(k, p)]), o, true).

(* index.rs 588-609: the loop over the elements of the bucket being split *)
Fixpoint split_loop (c : hcfg) (md bk sb nb : nat) (seen : list key) (l : list elem) (o : ofile) (x1 x2 : bucket)
  : option (ofile * bucket * bucket) :=
  match l with
  | [] => Some (o, x1, x2)
  | (k, p) :: r =>
    if existsb (keqb k) seen then split_loop c md bk sb nb seen r o x1 x2
    else let b := hash_to_bucket c md bk k in
         if negb (b =? sb) && negb (b =? nb) then None   (* panic! *)
         else if b =? sb
              then let '(x1', o', _) := save_buf c o x1 k p in split_loop c md bk sb nb (k :: seen) r o' x1' x2
              else let '(x2', o', _) := save_buf c o x2 k p in split_loop c md bk sb nb (k :: seen) r o' x1 x2'
  end.

Inductive res := ROk | RErr (e : herr) | RPanic | RLoop.

(* index.rs 563-618 *)
Definition split_one (c : hcfg) (s : hdx) : res * hdx :=
  let sb := hx_buckets s - hx_mod s / 2 in
  let bk := hx_buckets s + 1 in
  let nb := bk - 1 in
  let s1 := with_geom s bk (npow2 (bk + 1)) in
  let '(r, s2) := remove_bucket s1 sb in
  let '(l, w) := match r with inl x => bucket_items (hx_odx s2) x | inr _ => ([], WCrc) (* new_empty *) end in
  match split_loop c (hx_mod s2) (hx_buckets s2) sb nb [] l (hx_odx s2) bucket0 bucket0 with
  | None => (RPanic, s2)
  | Some (o', x1, x2) =>
    let s3 := with_odx s2 o' in
    match w with
    | WCrc => (RErr HCrc, s3)
    | _ => (ROk, with_caches s3 (hx_clean s3) (hx_fifo s3) (aput (aput (hx_dirty s3) sb x1) nb x2))
    end
  end.

(* index.rs 431-441; fuel: RLoop means the loop was still running *)
Fixpoint expand (c : hcfg) (fuel : nat) (s : hdx) : res * hdx :=
  if hc_thresh c (hx_cap s) <=? hx_values s then
    match fuel with
    | 0 => (RLoop, s)
    | S fuel' =>
      match split_one c s with
      | (ROk, s') => expand c fuel' (with_cap s' (hx_buckets s' * hc_elems c))
      | e => e
      end
    end
  else (ROk, s).

(* index.rs 620-631 *)
Definition save_to_bucket (c : hcfg) (s : hdx) (k : key) (p : pos) : res * hdx :=
  let b := hash_to_bucket c (hx_mod s) (hx_buckets s) k in
  match remove_bucket s b with
  | (inr e, s') => (RErr e, s')
  | (inl x, s') =>
    let '(x', o', inc) := save_buf c (hx_odx s') x k p in
    let s1 := with_odx s' o' in
    let s2 := if inc then with_values s1 (hx_values s1 + 1) else s1 in
    (ROk, with_caches s2 (hx_clean s2) (hx_fifo s2) (aput (hx_dirty s2) b x'))
  end.

(* index.rs 785-796 *)
Definition save (c : hcfg) (s : hdx) (k : key) (p : pos) : res * hdx :=
  if hx_ro s then (RErr HReadOnly, s)
  else let s0 := with_synced s false in
       match expand c (S (hx_values s0)) s0 with
       | (ROk, s1) => save_to_bucket c (with_bloom s1 (bl_accrue c (hx_bloom s1) k)) k p
       | e => e
       end.

(* index.rs 633-671 *)
Definition fetch (c : hcfg) (s : hdx) (k : key) : (pos + herr) * hdx :=
  let b := hash_to_bucket c (hx_mod s) (hx_buckets s) k in
  let was_dirty := match aget (hx_dirty s) b with Some _ => true | None => false end in
  let '(r, s1) := remove_bucket s b in
  let '(l, w) := match r with inl x => bucket_items (hx_odx s1) x | inr _ => ([], WCrc) end in
  let s2 := match r with
            | inl x => if was_dirty then with_caches s1 (hx_clean s1) (hx_fifo s1) (aput (hx_dirty s1) b x)
                       else add_clean c s1 b x
            | inr _ => s1 end in
  (match find_key k l with
   | Some p => inl p
   | None => match w with WCrc => inr HCrc | _ => inr HNotFound end
   end, s2).

(* index.rs 798-805 *)
Definition load (c : hcfg) (s : hdx) (k : key) : (pos + herr) * hdx :=
  if bl_contains c (hx_bloom s) k then fetch c s k else (inr HNotFound, s).

(* index.rs 525-543: write every dirty bucket in place and keep it as a clean copy *)
Definition put_cell (f : hfile) (b : nat) (x : cell) : hfile :=
  mk_hfile (f_buckets f) (f_values f) (f_dlen f) (f_bloom f) (aput (f_cells f) b x).
Fixpoint write_back (c : hcfg) (l : list (nat * bucket)) (s : hdx) : hdx :=
  match l with
  | [] => s
  | (b, x) :: r => write_back c r (add_clean c (with_file s (put_cell (hx_file s) b (CGood x))) b x)
  end.
Definition save_bucket_cache (c : hcfg) (s : hdx) : hdx :=
  let l := hc_drain c (hx_dirty s) in
  write_back c l (with_caches s (hx_clean s) (hx_fifo s) []).

(* index.rs 443-449 *)
Definition write_header (s : hdx) : hdx :=
  with_file s (mk_hfile (hx_buckets s) (hx_values s) (hx_dlen s) (hx_bloom s) (f_cells (hx_file s))).

Definition flush_all (c : hcfg) (s : hdx) : hdx :=
  let s2 := write_header (save_bucket_cache c s) in with_osafe s2 (o_end (hx_odx s2)).

(* index.rs 807-819 *)
Definition sync (c : hcfg) (s : hdx) : res * hdx :=
  if hx_ro s then (RErr HReadOnly, s) else (ROk, with_synced (flush_all c s) true).

(* index.rs 744-782: Drop *)
Definition drop_hdx (c : hcfg) (s : hdx) : hdx :=
  if negb (hx_ro s) && negb (hx_synced s) then flush_all c s else s.

(* index.rs 400-408 *)
Definition set_dlen (s : hdx) (n : nat) : hdx :=
  if hx_dlen s =? n then s else with_synced (with_dlen s n) false.

(* a stop without Drop: index.hdx is as the last sync left it (nothing writes it in between); index.odx keeps at least
   what was synced, possibly with some of what was appended since, possibly torn *)
Definition cut_odx (c : hcfg) (o : ofile) (e : nat) : ofile :=
  mk_ofile (filter (fun r => fst r + hc_bsize c <=? e) (o_recs o)) e.
Definition crash (c : hcfg) (s : hdx) (e : nat) : hdx :=
  open_hdx c (hx_file s) (cut_odx c (hx_odx s) (Nat.max (hx_osafe s) (Nat.min e (o_end (hx_odx s))))) (hx_osafe s) false.

(* a stop in the middle of save_bucket_cache: the first n dirty buckets are in the file, the header is not *)
Definition crash_in_sync (c : hcfg) (s : hdx) (n : nat) : hdx :=
  let s1 := write_back c (firstn n (hc_drain c (hx_dirty s))) s in
  open_hdx c (hx_file s1) (hx_odx s1) (o_end (hx_odx s1)) false.

Inductive hop :=
  | HSave (k : key) (p : pos) | HLoad (k : key) | HLen | HSetLen (n : nat) | HGetLen
  | HSync | HReopen (ro : bool) | HCrash (e : nat)
  (* damage to the files: a slot stops passing its checksum or stops being readable; a bloom byte changes *)
  | HRotBucket (b : nat) (crc : bool) | HRotOverflow (p : nat) (crc : bool) | HRotBloom (i : nat) (v : N).
Inductive hout := ZUnit | ZPos (p : pos) | ZNum (n : nat) | ZFail (e : herr) | ZPanic | ZLoop.

Arguments HSave _ _%N_scope.
Arguments ZPos _%N_scope.
Definition out_of (r : res) : hout := match r with ROk => ZUnit | RErr e => ZFail e | RPanic => ZPanic | RLoop => ZLoop end.
Definition rotted (crc : bool) : cell := if crc then CCrc else CIo.

Definition hstep (c : hcfg) (s : hdx) (op : hop) : hout * hdx :=
  match op with
  | HSave k p => let '(r, s') := save c s k p in (out_of r, s')
  | HLoad k => match load c s k with (inl p, s') => (ZPos p, s') | (inr e, s') => (ZFail e, s') end
  | HLen => (ZNum (hx_values s), s)
  | HSetLen n => (ZUnit, set_dlen s n)
  | HGetLen => (ZNum (hx_dlen s), s)
  | HSync => let '(r, s') := sync c s in (out_of r, s')
  | HReopen ro => let s' := drop_hdx c s in (ZUnit, open_hdx c (hx_file s') (hx_odx s') (hx_osafe s') ro)
  | HCrash e => (ZUnit, crash c s e)
  | HRotBucket b crc => (ZUnit, match aget (f_cells (hx_file s)) b with
                                | Some _ => with_file s (put_cell (hx_file s) b (rotted crc)) | None => s end)
  | HRotOverflow p crc => (ZUnit, match aget (o_recs (hx_odx s)) p with
                                  | Some _ => with_odx s (mk_ofile (aput (o_recs (hx_odx s)) p (rotted crc)) (o_end (hx_odx s)))
                                  | None => s end)
  | HRotBloom i v => (ZUnit, with_file s (mk_hfile (f_buckets (hx_file s)) (f_values (hx_file s)) (f_dlen (hx_file s))
                                 (upd i (fun _ => v) (f_bloom (hx_file s))) (f_cells (hx_file s))))
  end.

Fixpoint hrun (c : hcfg) (s : hdx) (ops : list hop) : list hout * hdx :=
  match ops with
  | [] => ([], s)
  | o :: r => let '(x, s1) := hstep c s o in let '(xs, s2) := hrun c s1 r in (x :: xs, s2)
  end.

Definition new_hdx (c : hcfg) (dlen0 : nat) : hdx := open_hdx c (fresh_file c dlen0) fresh_odx ODX_HEADER false.
