(* Model of crates/storage/src/archive/{pack.rs, pack_iter.rs, crc.rs}: the record log over `DataFile`.
   Parameters: the value codec (BCS, `encode_into_buffer`/`try_decode`), zstd, CRC-32 and the uid hash (gen_uid). *)
From Verif Require Import Util FileModel.

(* to_le_bytes / from_le_bytes of a k-byte unsigned integer *)
Fixpoint le (k : nat) (n : N) : bytes :=
  match k with O => [] | S k => (n mod 256)%N :: le k (n / 256)%N end.
Fixpoint unle (b : bytes) : N := match b with [] => 0%N | x :: r => (x + 256 * unle r)%N end.

Definition MAX_RECORD_SIZE : N := (16 * 1024 * 1024)%N.   (* pack_iter.rs 22 *)
Definition DATA_HEADER_BYTES : nat := 28.                 (* pack.rs 538 *)

Record codec (V : Type) := mk_codec {
  enc : V -> option bytes;         (* encode_into_buffer; None: serialization failed *)
  dec : bytes -> option V;         (* try_decode *)
  zip : bytes -> bytes;            (* zstd compression of one record *)
  unzip : bytes -> option bytes;   (* zstd decompression; None: not a valid stream *)
  crc : bytes -> N;                (* crc32fast over the whole buffer *)
  guid : N -> N }.                 (* pack.rs 630-637 gen_uid *)
Arguments enc {V}. Arguments dec {V}. Arguments zip {V}. Arguments unzip {V}. Arguments crc {V}. Arguments guid {V}.

Inductive perr :=
  | EIo (e : ferr) | ETooLarge | ECrc | EUnzip | EDecode | EReadOnly | EWrite | ERange
  | EHdrCrc | EHdrType | EHdrUid | EHdrComp | EHdrVersion | EHdrApp.
Inductive pres (A : Type) := POk (a : A) | PErr (e : perr).
Arguments POk {A}. Arguments PErr {A}.

Section Pack.
Context {V : Type}.
Variable C : codec V.
Variable rsz wsz : nat.

(* ---------- header: pack.rs 545-679 ---------- *)
Record header := mk_hdr { h_version : N; h_uid : N; h_app : N; h_comp : bool }.

Definition telnet : bytes := [116; 101; 108; 110; 101; 116]%N.   (* b"telnet" *)

(* 640-658 `write_header`, crc.rs 26-36 `add_crc32` *)
Definition header_body (h : header) : bytes :=
  telnet ++ le 2 (h_version h) ++ le 8 (h_uid h) ++ le 4 (h_app h) ++ le 4 (if h_comp h then 1 else 0).
Definition header_bytes (h : header) : bytes := header_body h ++ le 4 (crc C (header_body h)).

(* 587-626 `load_header_from_buffer` (b has exactly 28 bytes) *)
Definition load_header (uidx : N) (b : bytes) : pres header :=
  if negb (unle (slice b 24 4) =? crc C (slice b 0 24))%N then PErr EHdrCrc
  else if negb (if list_eq_dec N.eq_dec (slice b 0 6) telnet then true else false) then PErr EHdrType
  else
    let uid := unle (slice b 8 8) in
    if negb (uid =? guid C uidx)%N then PErr EHdrUid
    else
      let c := unle (slice b 20 4) in
      let mk z := POk (mk_hdr (unle (slice b 6 2)) uid (unle (slice b 16 4)) z) in
      if (c =? 0)%N then mk false else if (c =? 1)%N then mk true else PErr EHdrComp.   (* 692-698 from_u32 *)

(* ---------- one record ---------- *)

(* 507-520: the bytes stored for a value *)
Definition payload (comp : bool) (v : V) : option bytes :=
  match enc C v with
  | None => None
  | Some b => Some (if comp then zip C b else b)
  end.

(* 423-440 = pack_iter.rs 114-129: from stored bytes back to a value. Simplified: `take(MAX+1)` stops the
   decompressor early on an oversize stream; here the whole stream is decompressed and then measured. *)
Definition unpayload (comp : bool) (b : bytes) : pres V :=
  let plain :=
    if comp
    then match unzip C b with
         | None => PErr EUnzip
         | Some d => if (MAX_RECORD_SIZE <? N.of_nat (length d))%N then PErr ETooLarge else POk d
         end
    else POk b in
  match plain with
  | PErr e => PErr e
  | POk d => match dec C d with Some v => POk v | None => PErr EDecode end
  end.

(* 496-535 `write_value`: length (as u32), bytes, crc over both; three write_all calls *)
Definition write_value (comp : bool) (v : V) (f : dfile) : pres unit * dfile :=
  match payload comp v with
  | None => (PErr EWrite, f)
  | Some b =>
    let size := le 4 (N.of_nat (length b) mod 2 ^ 32)%N in
    match df_write_all wsz size f with
    | (FErr e, f1) => (PErr (EIo e), f1)
    | (FOk _, f1) =>
      match df_write_all wsz b f1 with
      | (FErr e, f2) => (PErr (EIo e), f2)
      | (FOk _, f2) =>
        match df_write_all wsz (le 4 (crc C (size ++ b))) f2 with
        | (FErr e, f3) => (PErr (EIo e), f3)
        | (FOk _, f3) => (POk tt, f3)
        end
      end
    end
  end.

(* read_exact with the error lifted *)
Definition rd (n : nat) (f : dfile) : pres bytes * dfile :=
  match df_read_exact rsz n f with (FOk b, f') => (POk b, f') | (FErr e, f') => (PErr (EIo e), f') end.

(* 403-422 / 445-464: the checked bytes of the record at a position *)
Definition read_checked (pos : nat) (f : dfile) : pres bytes * dfile :=
  let f0 := snd (df_seek (SStart pos) f) in
  match rd 4 f0 with
  | (PErr e, f1) => (PErr e, f1)
  | (POk sb, f1) =>
    let size := unle sb in
    if (MAX_RECORD_SIZE <? size)%N then (PErr ETooLarge, f1)
    else match rd (N.to_nat size) f1 with
    | (PErr e, f2) => (PErr e, f2)
    | (POk b, f2) =>
      match rd 4 f2 with
      | (PErr e, f3) => (PErr e, f3)
      | (POk cb, f3) => if negb (crc C (sb ++ b) =? unle cb)%N then (PErr ECrc, f3) else (POk b, f3)
      end
    end
  end.

(* ---------- the pack ---------- *)
(* 168-187 `PackInner`; `failed` keeps only whether the pack has failed, not the copied error *)
Record pack := mk_pack { k_df : dfile; k_hdr : header; k_failed : bool }.
Definition on_df (k : pack) (f : dfile) : pack := mk_pack f (k_hdr k) (k_failed k).

(* 371-398 `open_data_file`, 205-227 `open` *)
Definition pack_open (os : bytes) (safe : nat) (uidx version : N) (comp ro : bool) : pres pack :=
  match df_open rsz os safe ro with
  | FErr e => PErr (EIo e)
  | FOk f =>
    if f_end f =? 0
    then let h := mk_hdr version (guid C uidx) 1 comp in
         match df_write_all wsz (header_bytes h) f with
         | (FErr e, _) => PErr (EIo e)
         | (FOk _, f1) => POk (mk_pack (df_flush f1) h false)
         end
    else match rd DATA_HEADER_BYTES (snd (df_seek (SStart 0) f)) with
         | (PErr e, _) => PErr e
         | (POk b, f1) =>
           match load_header uidx b with
           | PErr e => PErr e
           | POk h => if (version <? h_version h)%N then PErr EHdrVersion
                      else if negb (h_app h =? 1)%N then PErr EHdrApp
                      else POk (mk_pack (df_flush f1) h false)
           end
         end
  end.

(* 230-232 `file_len` *)
Definition pack_len (k : pack) : nat := df_len (k_df k).

(* 235-237, 403-441 `fetch` *)
Definition pack_fetch (pos : nat) (k : pack) : pres V * pack :=
  match read_checked pos (k_df k) with
  | (PErr e, f) => (PErr e, on_df k f)
  | (POk b, f) => (unpayload (h_comp (k_hdr k)) b, on_df k f)
  end.

(* 445-466 `record_size` *)
Definition pack_record_size (pos : nat) (k : pack) : pres N * pack :=
  match read_checked pos (k_df k) with
  | (PErr e, f) => (PErr e, on_df k f)
  | (POk b, f) => (POk (N.of_nat (length b) + 8)%N, on_df k f)
  end.

(* 240-254 `read_bytes` *)
Definition pack_read_bytes (a b : nat) (k : pack) : pres bytes * pack :=
  if (b <? a) || (pack_len k <? b) then (PErr ERange, k)
  else match rd (b - a) (snd (df_seek (SStart a) (k_df k))) with (r, f) => (r, on_df k f) end.

(* 273-321 `append` *)
Definition pack_append (v : V) (k : pack) : pres nat * pack :=
  if f_ro (k_df k) then (PErr EReadOnly, k)
  else if k_failed k then (PErr EWrite, k)
  else
    let p := pack_len k in
    match write_value (h_comp (k_hdr k)) v (k_df k) with
    | (PErr e, f) => (PErr e, mk_pack f (k_hdr k) true)
    | (POk _, f) => (POk p, on_df k f)
    end.

(* 366-369 `flush` *)
Definition pack_flush (k : pack) : pack := on_df k (df_flush (k_df k)).

(* 354-362 `commit` *)
Definition pack_commit (k : pack) : pres unit * pack :=
  if f_ro (k_df k) then (PErr EReadOnly, k)
  else if k_failed k then (PErr EWrite, k)
  else (POk tt, on_df k (df_sync (df_flush (k_df k)))).

(* `commit` whose flush hits an I/O error after n bytes of the buffer reached the file: 359 returns the error
   and, unlike 307-312 for append, does not record a failed state *)
Definition pack_commit_fail (n : nat) (k : pack) : pres unit * pack :=
  if f_ro (k_df k) then (PErr EReadOnly, k)
  else if k_failed k then (PErr EWrite, k)
  else (PErr EWrite, on_df k (df_flush_fail n (k_df k))).

(* 482-484 `truncate` *)
Definition pack_truncate (n : nat) (k : pack) : pres unit * pack :=
  match df_set_len rsz n (k_df k) with
  | (FOk _, f) => (POk tt, on_df k f)
  | (FErr e, f) => (PErr (EIo e), on_df k f)
  end.

(* 189-198 `Drop` of the pack (commit unless read-only; on a failed pack that does nothing), then of its file *)
Definition pack_drop (k : pack) : dfile :=
  df_drop (k_df (if f_ro (k_df k) then k else snd (pack_commit k))).

(* ---------- iteration: pack_iter.rs 82-153 (sync) and 224-290 (async, same steps) over a byte stream ---------- *)
Inductive inext := INone | IErr (e : perr) | IVal (v : V) (rest : bytes).
Definition iter_next (comp : bool) (s : bytes) : inext :=
  if length s <? 4 then INone
  else
    let sb := firstn 4 s in
    let size := unle sb in
    if (MAX_RECORD_SIZE <? size)%N then IErr ETooLarge
    else
      let n := N.to_nat size in
      let s1 := skipn 4 s in
      if length s1 <? n then IErr (EIo Eof)
      else
        let b := firstn n s1 in
        let s2 := skipn n s1 in
        if length s2 <? 4 then IErr (EIo Eof)
        else if negb (crc C (sb ++ b) =? unle (firstn 4 s2))%N then IErr ECrc
        else match unpayload comp b with
             | PErr e => IErr e
             | POk v => IVal v (skipn 4 s2)
             end.

(* the values up to the first error or the end, and which of the two it was *)
Fixpoint iter_all (fuel : nat) (comp : bool) (s : bytes) : list V * option perr :=
  match fuel with
  | O => ([], None)
  | S fuel =>
    match iter_next comp s with
    | INone => ([], None)
    | IErr e => ([], Some e)
    | IVal v r => let '(vs, e) := iter_all fuel comp r in (v :: vs, e)
    end
  end.

(* 489-492 `raw_iter` + pack_iter.rs 48-62 `open`: reads the operating-system file from its start, not the write
   buffer. Simplified: the iterator has its own cursor (the code shares one with the DataFile through
   try_clone, so it must not be interleaved with fetches), and it is run to its end at once. *)
Definition pack_iter (uidx : N) (os : bytes) : pres (list V * option perr) :=
  if length os <? DATA_HEADER_BYTES then PErr (EIo Eof)
  else match load_header uidx (firstn DATA_HEADER_BYTES os) with
       | PErr e => PErr e
       | POk h => if negb (h_app h =? 1)%N then PErr EHdrApp
                  else POk (iter_all (length os) (h_comp h) (skipn DATA_HEADER_BYTES os))
       end.

(* ---------- operations ---------- *)
Inductive pop :=
  | OAppend (v : V) | OFetch (pos : nat) | OSize (pos : nat) | OBytes (a b : nat)
  | OFlushP | OCommit | OTruncate (n : nat) | OLenP | OIter
  | OReopenP (ro : bool)      (* drop, then open again *)
  | OCrash (n : nat).         (* the process dies, n bytes of the file survive; the pack is opened again *)
Inductive pout :=
  | XPos (p : nat) | XVal (v : V) | XNum (n : N) | XBytes (b : bytes) | XUnit | XFail (e : perr)
  | XVals (vs : list V) (e : option perr).

Definition xof {A} (g : A -> pout) (r : pres A) : pout := match r with POk a => g a | PErr e => XFail e end.

(* uidx and version are those the pack is always opened with *)
Definition pack_step (uidx version : N) (o : pop) (k : pack) : pout * pack :=
  match o with
  | OAppend v => let '(r, k') := pack_append v k in (xof XPos r, k')
  | OFetch p => let '(r, k') := pack_fetch p k in (xof XVal r, k')
  | OSize p => let '(r, k') := pack_record_size p k in (xof XNum r, k')
  | OBytes a b => let '(r, k') := pack_read_bytes a b k in (xof XBytes r, k')
  | OFlushP => (XUnit, pack_flush k)
  | OCommit => let '(r, k') := pack_commit k in (xof (fun _ => XUnit) r, k')
  | OTruncate n => let '(r, k') := pack_truncate n k in (xof (fun _ => XUnit) r, k')
  | OLenP => (XPos (pack_len k), k)
  | OIter => (xof (fun '(vs, e) => XVals vs e) (pack_iter uidx (f_os (k_df k))), k)
  | OReopenP ro =>
      let d := pack_drop k in
      match pack_open (f_os d) (f_safe d) uidx version (h_comp (k_hdr k)) ro with
      | POk k' => (XUnit, k')
      | PErr e => (XFail e, on_df k d)
      end
  | OCrash n =>
      let f := k_df k in
      let os := firstn (Nat.max (f_safe f) n) (f_os f) in
      match pack_open os (Nat.min (f_safe f) (length os)) uidx version (h_comp (k_hdr k)) (f_ro f) with
      | POk k' => (XUnit, k')
      | PErr e => (XFail e, k)
      end
  end.

Fixpoint pack_run (uidx version : N) (ops : list pop) (k : pack) : list pout * pack :=
  match ops with
  | [] => ([], k)
  | o :: rest =>
    let '(x, k1) := pack_step uidx version o k in
    let '(xs, k2) := pack_run uidx version rest k1 in (x :: xs, k2)
  end.

End Pack.
Arguments OFetch {V}. Arguments OSize {V}. Arguments OBytes {V}. Arguments OFlushP {V}. Arguments OCommit {V}.
Arguments OTruncate {V}. Arguments OLenP {V}. Arguments OIter {V}. Arguments OReopenP {V}. Arguments OCrash {V}.
Arguments XPos {V}. Arguments XVal {V}. Arguments XNum {V}. Arguments XBytes {V}. Arguments XUnit {V}.
Arguments XFail {V}. Arguments XVals {V}. Arguments OAppend {V}.
Arguments INone {V}. Arguments IErr {V}. Arguments IVal {V}.
