(** The consensus pack of one epoch: data file, position index and two digest indexes, their
    persist order, what a crash leaves, and the repair on open (C42).

    The three index structures and the data file are used through their specifications (C23-C26): the
    data file is a sequence of records at byte offsets, the position index an append-only array, a
    digest index a map in which the newest entry for a digest wins, plus the recorded length of the
    data file.  [rsz] is the number of bytes a record takes in the data file. *)
From Verif Require Import Util OutModel.
Local Open Scope nat_scope.

Definition DATA_HEADER : nat := 28.                                  (* archive/pack.rs 538 *)

(** A stretch of the data file: a complete record or bytes that are no record (a cut-off one). *)
Inductive seg := SRec (r : rec) | SJunk (n : nat).

(** consensus_pack.rs 1868-1893 [IndexPositions]. *)
Record ipos := { ip_hdr : nat; ip_start : nat; ip_end : nat }.

(** Where a crash can fall inside [persist] (consensus_pack.rs 1162-1170): after how many of its
    syncs (data, position index, header digests, batch digests); [J0] is any crash outside. *)
Inductive stage := J0 | J1 | J2 | J3.
Definition past_data j := match j with J0 => false | _ => true end.
Definition past_idx j := match j with J0 | J1 => false | _ => true end.
Definition past_cons j := match j with J3 => true | _ => false end.

Section E.
Variable bd : N -> N.
Variable addr : N -> option N.
Variable hd : N -> subdag -> N -> N.
Variable cap : nat.
Variable rsz : rec -> nat.

Definition slen (s : seg) : nat := match s with SRec r => rsz r | SJunk n => n end.
Definition flen (d : list seg) : nat := DATA_HEADER + list_sum (map slen d).

(** set_len to fewer bytes: whole records before the cut stay, the rest of the cut one is junk. *)
Fixpoint cut (n : nat) (d : list seg) : list seg :=
  match d with
  | [] => []
  | s :: t => if slen s <=? n then s :: cut (n - slen s) t else if n =? 0 then [] else [SJunk n]
  end.
Definition truncate (n : nat) (d : list seg) : list seg := cut (n - DATA_HEADER) d.

(** archive/pack.rs fetch: the record starting exactly at the offset (C24: anything else is an
    error, never a wrong record). *)
Fixpoint fetch_at (n : nat) (d : list seg) : option rec :=
  match d with
  | [] => None
  | s :: t => if n =? 0 then match s with SRec r => Some r | SJunk _ => None end
              else if slen s <=? n then fetch_at (n - slen s) t else None
  end.
Definition fetch (pos : nat) (d : list seg) : option rec :=
  if pos <? DATA_HEADER then None else fetch_at (pos - DATA_HEADER) d.

(** archive/pack.rs read_bytes, then the record iterator over those bytes: the records between two
    offsets; whatever is not a whole record comes out as [RBad]. *)
Fixpoint skip_to (n : nat) (d : list seg) : list seg :=
  match d with
  | [] => []
  | s :: t => if n =? 0 then d else if slen s <=? n then skip_to (n - slen s) t else [SJunk (slen s - n)]
  end.
Definition recs_between (a b : nat) (d : list seg) : option (list rec) :=
  if (flen d <? b) || (b <? a) then None
  else Some (map (fun s => match s with SRec r => r | SJunk _ => RBad end)
                 (cut (b - a) (skip_to (a - DATA_HEADER) d))).

(** Open pack ([Inner], consensus_pack.rs 619-634).  [p_start] is the start number in the epoch
    metadata, [p_epoch] its epoch.  [p_cmap]/[p_bmap]: the digest indexes, newest entry first.
    The last six fields say what a crash cannot take away: bytes of data, index entries, oldest
    entries of each map, and the two recorded lengths on disk. *)
Record epack := mk_ep {
  p_epoch : N; p_start : N;
  p_data : list seg; p_idx : list ipos;
  p_cmap : list (N * nat); p_clen : nat;
  p_bmap : list (N * nat); p_blen : nat;
  p_dsync : nat; p_isync : nat; p_csync : nat; p_clen_disk : nat; p_bsync : nat; p_blen_disk : nat }.

Fixpoint dmap_get (d : N) (m : list (N * nat)) : option nat :=
  match m with [] => None | (k, v) :: t => if N.eqb k d then Some v else dmap_get d t end.

(** consensus_pack.rs 1009-1034 [save_consensus_batches]. *)
Definition save_batch (st : list seg * list (N * nat)) (e : N * N) : list seg * list (N * nat) :=
  let (data, bmap) := st in (data ++ [SRec (RBatch (snd e))], (fst e, flen data) :: bmap).

(** consensus_pack.rs 1036-1088 [save_consensus_output] (format v1).  [None] is an error; appends
    do not fail here. *)
Definition save (p : epack) (o : output) : option nat * epack :=
  let idx := N.to_nat (out_num o - p_start p)%N in          (* saturating_sub *)
  if negb (sd_epoch (out_sub o) =? p_epoch p)%N then (None, p)
  else match nth_error (p_idx p) idx with
  | Some e => (Some (ip_end e - ip_start e), p)             (* already saved: ignored *)
  | None =>
      if negb (idx =? length (p_idx p)) then (None, p)
      else
        let pos := flen (p_data p) in
        let data1 := p_data p ++ [SRec (RHeader (header_of o))] in
        let (data2, bmap2) := fold_left save_batch (collect_batches bd o) (data1, p_bmap p) in
        let len := flen data2 in
        (Some (len - pos),
         mk_ep (p_epoch p) (p_start p) data2 (p_idx p ++ [{| ip_hdr := pos; ip_start := pos; ip_end := len |}])
               ((digest_of hd (header_of o), pos) :: p_cmap p) len bmap2 len
               (p_dsync p) (p_isync p) (p_csync p) (p_clen_disk p) (p_bsync p) (p_blen_disk p))
  end.

(** consensus_pack.rs 1090-1094 *)
Definition contains_number (p : epack) (n : N) : bool :=
  ((p_start p <=? n) && (n <? N.of_nat (length (p_idx p)) + p_start p))%N.

(** consensus_pack.rs 1148-1160 *)
Definition header_by_number (p : epack) (n : N) : option chdr :=
  if (n <? p_start p)%N then None
  else if (p_start p + N.of_nat (length (p_idx p)) <=? n)%N then None
  else match nth_error (p_idx p) (N.to_nat (n - p_start p)) with
       | None => None
       | Some e => match fetch (ip_hdr e) (p_data p) with Some (RHeader h) => Some h | _ => None end
       end.

(** consensus_pack.rs 1108-1146 *)
Definition header_by_digest (p : epack) (d : N) : option chdr :=
  match dmap_get d (p_cmap p) with
  | None => None
  | Some pos =>
      if flen (p_data p) <=? pos then None
      else match fetch pos (p_data p) with
           | Some (RHeader h) => if (digest_of hd h =? d)%N then Some h else None
           | _ => None
           end
  end.

(** consensus_pack.rs 1289-1308 *)
Definition batch_by_digest (p : epack) (d : N) : option N :=
  match dmap_get d (p_bmap p) with
  | None => None
  | Some pos =>
      if flen (p_data p) <=? pos then None
      else match fetch pos (p_data p) with
           | Some (RBatch b) => if (bd b =? d)%N then Some b else None
           | _ => None
           end
  end.

(** consensus_pack.rs 367-394, 1181-1202: [get_consensus_output].  [None] is any error. *)
Definition get_output (p : epack) (n : N) : option output :=
  if (n <? p_start p)%N then None
  else if (p_start p + N.of_nat (length (p_idx p)) <=? n)%N then None
  else match nth_error (p_idx p) (N.to_nat (n - p_start p)) with
       | None => None
       | Some e => match recs_between (ip_start e) (ip_end e) (p_data p) with
                   | None => None
                   | Some rs => match iter_to_output bd addr hd cap ENone rs with
                                | ROk o _ => Some o
                                | _ => None
                                end
                   end
       end.

(** consensus_pack.rs 1228-1237: [Some None] is "no header", [None] an error. *)
Definition latest_header (p : epack) : option (option chdr) :=
  match p_idx p with
  | [] => Some None
  | _ => option_map Some (header_by_number p (p_start p + N.of_nat (length (p_idx p)) - 1)%N)
  end.

(** consensus_pack.rs 1162-1170 [persist], all four syncs done. *)
Definition persist (p : epack) : epack :=
  mk_ep (p_epoch p) (p_start p) (p_data p) (p_idx p) (p_cmap p) (p_clen p) (p_bmap p) (p_blen p)
        (flen (p_data p)) (length (p_idx p)) (length (p_cmap p)) (p_clen p) (length (p_bmap p)) (p_blen p).

(** What is on disk when the process is gone. *)
Record image := { k_data : list seg; k_idx : list ipos; k_cmap : list (N * nat); k_clen : nat;
                  k_bmap : list (N * nat); k_blen : nat;
                  k_dsync : nat; k_isync : nat; k_csync : nat; k_bsync : nat }.

(** A crash in [stage] j: [m] bytes of data and [k] index entries survive, the newest [c] and [b]
    unsynced entries of the digest maps are lost.  Synced parts always survive (the guard). *)
Definition crash (p : epack) (j : stage) (m k c b : nat) : option image :=
  let ds := if past_data j then flen (p_data p) else p_dsync p in
  let is_ := if past_idx j then length (p_idx p) else p_isync p in
  let cs := if past_cons j then length (p_cmap p) else p_csync p in
  if (ds <=? m) && (m <=? flen (p_data p)) && (is_ <=? k) && (k <=? length (p_idx p))
     && (cs + c <=? length (p_cmap p)) && (p_bsync p + b <=? length (p_bmap p))
  then Some {| k_data := truncate m (p_data p); k_idx := firstn k (p_idx p);
               k_cmap := skipn c (p_cmap p); k_clen := if past_cons j then p_clen p else p_clen_disk p;
               k_bmap := skipn b (p_bmap p); k_blen := p_blen_disk p;
               k_dsync := ds; k_isync := is_; k_csync := cs; k_bsync := p_bsync p |}
  else None.

(** consensus_pack.rs 694-722: the loop of [trunc_and_heal]; [truncate_to_index] keeps the entry,
    [truncate_all] none.  Unreadable index entries are not modelled (load never fails here). *)
Fixpoint heal_loop (ix : list ipos) (start pack_len new_len i : nat) : list ipos * nat :=
  match nth_error ix i with
  | Some e =>
      let ix1 := if i =? start then ix else firstn (S i) ix in
      if ip_end e <=? pack_len then (ix1, ip_end e)
      else match i with
           | O => (if 0 =? start then ix1 else [], ip_end e)
           | S i' => heal_loop ix1 start pack_len (ip_end e) i'
           end
  | None =>
      match i with
      | O => (if 0 =? start then ix else [], new_len)
      | S i' => heal_loop ix start pack_len new_len i'
      end
  end.

(** consensus_pack.rs 665-735 [trunc_and_heal]. *)
Definition heal_first (data : list seg) (cf bf : nat) : list seg :=
  let pack_len := flen data in
  if (cf <? pack_len) || (bf <? pack_len) then
    if (bf <? cf) && (DATA_HEADER <? bf) then truncate bf data
    else if DATA_HEADER <? cf then truncate cf data
    else data
  else data.
Definition heal (data : list seg) (ix : list ipos) (cf bf : nat) : list seg * list ipos :=
  let data1 := heal_first data cf bf in
  let pack_len := flen data1 in
  match ix with
  | [] => (data1, ix)
  | _ =>
      let start := length ix - 1 in
      let (ix', new_len) := heal_loop ix start pack_len pack_len start in
      let new_len := Nat.min new_len pack_len in
      (if new_len =? pack_len then data1 else truncate new_len data1, ix')
  end.

(** consensus_pack.rs 750-825 [open_append] on existing files: the metadata at offset 28 must be
    the expected one; if that record cannot be read another one is appended.  [meta] encodes the
    expected metadata. *)
Definition open_append (k : image) (epoch start meta : N) : option epack :=
  let opened :=
    match fetch DATA_HEADER (k_data k) with
    | Some (RMeta m) => if (m =? meta)%N then Some (k_data k) else None
    | Some RBad | None => Some (k_data k ++ [SRec (RMeta meta)])
    | Some _ => None
    end in
  match opened with
  | None => None
  | Some data =>
      let (data', ix') := heal data (k_idx k) (k_clen k) (k_blen k) in
      Some (mk_ep epoch start data' ix' (k_cmap k) (flen data') (k_bmap k) (flen data')
                  (Nat.min (k_dsync k) (flen data')) (Nat.min (k_isync k) (length ix'))
                  (k_csync k) (k_clen k) (k_bsync k) (k_blen k))
  end.

(** consensus_pack.rs 827-870 [open_append_exists]: the metadata must be readable at offset 28. *)
Definition open_append_exists (k : image) (epoch start meta : N) : option epack :=
  match fetch DATA_HEADER (k_data k) with
  | Some (RMeta _) => open_append k epoch start meta
  | _ => None
  end.

(** consensus_pack.rs 750-825 on a new directory (have_pack false): metadata appended, recorded lengths set,
    nothing synced yet (the header of the data file is).  storage/src/consensus.rs 471-473
    persists it right away. *)
Definition create (epoch start meta : N) : epack :=
  let data := [SRec (RMeta meta)] in
  mk_ep epoch start data [] [] (flen data) [] (flen data) DATA_HEADER 0 0 DATA_HEADER 0 DATA_HEADER.
End E.
