(* Model of crates/storage/src/archive/data_file.rs: `DataFile`, a file behind a read buffer and a write buffer.
   A byte is an N, an offset or a length a nat (the code uses u64/usize; overflow of 64-bit offsets and the
   i64 casts of 308/319 is not modelled). The operating system is modelled as one byte list per file with no
   I/O errors except: end of file, setting the length of a file opened read-only, and (separately, `df_flush_fail`)
   a write that stops part-way. *)
From Verif Require Import Util.

Definition bytes := list N.

(* bytes [off, off+n) of a file, shorter at the end of the file *)
Definition slice (l : bytes) (off n : nat) : bytes := firstn n (skipn off l).

(* 47-60 `struct DataFile`. f_os is the file as the operating system shows it, f_safe how much of it the last
   fsync (and no later truncation) covers; f_r holds the valid part `read_buffer[..read_buffer_len]`. *)
Record dfile := mk_df {
  f_os : bytes; f_safe : nat;
  f_end : nat;           (* data_file_end *)
  f_w : bytes;           (* write_buffer *)
  f_r : bytes;           (* read_buffer[..read_buffer_len] *)
  f_rs : nat;            (* read_buffer_start *)
  f_pos : nat;           (* seek_pos *)
  f_ro : bool }.         (* read_only *)

Definition set_pos (f : dfile) p := mk_df (f_os f) (f_safe f) (f_end f) (f_w f) (f_r f) (f_rs f) p (f_ro f).
Definition set_rbuf (f : dfile) r s := mk_df (f_os f) (f_safe f) (f_end f) (f_w f) r s (f_pos f) (f_ro f).

Inductive ferr := Eof | ReadOnly | Negative | OsErr | WriteZero | Panic | Stuck.
Inductive fres (A : Type) := FOk (a : A) | FErr (e : ferr).
Arguments FOk {A}. Arguments FErr {A}.

(* std `File::read_exact` of n bytes at offset off: all of them or UnexpectedEof *)
Definition os_read (os : bytes) (off n : nat) : fres bytes :=
  if off + n <=? length os then FOk (slice os off n) else FErr Eof.

Section Buffers.
Variable rsz wsz : nat.    (* 12-13 READ_BUFFER_SIZE, WRITE_BUFFER_SIZE (both 16384) *)

(* 64-112 `open` on a file with contents os (safe of them known to be on disk) *)
Definition df_open (os : bytes) (safe : nat) (ro : bool) : fres dfile :=
  let e := length os in
  let n := if e <? rsz then e else rsz in
  match os_read os 0 n with
  | FOk r => FOk (mk_df os safe e [] r 0 0 ro)
  | FErr x => FErr x
  end.

(* 125-127 `len` *)
Definition df_len (f : dfile) : nat := f_end f + length (f_w f).

(* 338-342, 352-354, 361-366: append the write buffer to the file (O_APPEND: always at the end of the file) *)
Definition df_drain (f : dfile) : dfile :=
  mk_df (f_os f ++ f_w f) (f_safe f) (f_end f + length (f_w f)) [] (f_r f) (f_rs f) (f_pos f) (f_ro f).

(* a drain whose write stops after k bytes with an error: 340/352/362 return before 341/353/363 *)
Definition df_flush_fail (k : nat) (f : dfile) : dfile :=
  mk_df (f_os f ++ firstn k (f_w f)) (f_safe f) (f_end f) (f_w f) (f_r f) (f_rs f) (f_pos f) (f_ro f).

(* 360-367 `flush` *)
Definition df_flush (f : dfile) : dfile := if f_ro f then f else df_drain f.

(* 174-180 `sync_all` *)
Definition df_sync (f : dfile) : dfile :=
  if f_ro f then f
  else mk_df (f_os f) (length (f_os f)) (f_end f) (f_w f) (f_r f) (f_rs f) (f_pos f) (f_ro f).

(* File::set_len of the operating system: cut, or extend with zeros *)
Definition os_set_len (os : bytes) (n : nat) : bytes := firstn n os ++ repeat 0%N (n - length os).

(* 136-166 `set_len` *)
Definition df_set_len (n : nat) (f : dfile) : fres unit * dfile :=
  let f := if negb (f_ro f) && negb (match f_w f with [] => true | _ => false end) then df_drain f else f in
  if f_ro f then (FErr OsErr, f)       (* 142: EINVAL on a descriptor not open for writing *)
  else
    let f := mk_df (os_set_len (f_os f) n) (Nat.min (f_safe f) n) n (f_w f) (f_r f) (f_rs f) (f_pos f) (f_ro f) in
    if n <? f_rs f + length (f_r f)
    then if 0 <? f_end f
         then match os_read (f_os f) 0 (if f_end f <? rsz then f_end f else rsz) with
              | FOk r => (FOk tt, set_rbuf f r 0)
              | FErr x => (FErr x, f)
              end
         else (FOk tt, set_rbuf f [] 0)
    else (FOk tt, f).

(* 184-187 `refresh_data_file_end` *)
Definition df_refresh (f : dfile) : dfile :=
  mk_df (f_os f) (f_safe f) (length (f_os f)) (f_w f) (f_r f) (f_rs f) (f_pos f) (f_ro f).

(* 224-239 `copy_read_buffer` *)
Definition df_copy (n : nat) (f : dfile) : fres bytes * dfile :=
  let depth := f_pos f - f_rs f in
  let size := if length (f_r f) <? depth + n then length (f_r f) - depth else n in
  let f' := set_pos f (f_pos f + size) in
  if size =? 0 then (FErr Panic, f') else (FOk (slice (f_r f) depth size), f').

(* 247-299 `Read::read` into a buffer of n bytes; the bytes copied are returned *)
Definition df_read (n : nat) (f : dfile) : fres bytes * dfile :=
  if n =? 0 then (FOk [], f)
  else if f_end f <=? f_pos f
  then let wp := f_pos f - f_end f in
       if wp <? length (f_w f)
       then let size := if length (f_w f) <? wp + n then length (f_w f) - wp else n in
            (FOk (slice (f_w f) wp size), set_pos f (f_pos f + size))
       else (FOk [], f)
  else if (f_rs f <=? f_pos f) && (f_pos f <? f_rs f + length (f_r f))
  then df_copy n f
  else
    let sp := if f_end f - f_pos f <? rsz then f_end f - rsz else f_pos f - rsz / 2 in
    let e := f_end f - sp in
    if 0 <? e
    then match os_read (f_os f) sp (if e <? rsz then e else rsz) with
         | FOk r => df_copy n (set_rbuf f r sp)
         | FErr x => (FErr x, f)
         end
    else (FOk [], f).

(* std `Read::read_exact` (default_read_exact): read until the buffer is full; a read of 0 bytes is UnexpectedEof *)
Fixpoint df_read_exact_loop (fuel n : nat) (acc : bytes) (f : dfile) : fres bytes * dfile :=
  if n =? 0 then (FOk acc, f)
  else match fuel with
  | O => (FErr Stuck, f)
  | S fuel =>
    match df_read n f with
    | (FErr e, f') => (FErr e, f')
    | (FOk bs, f') => if length bs =? 0 then (FErr Eof, f')
                      else df_read_exact_loop fuel (n - length bs) (acc ++ bs) f'
    end
  end.
Definition df_read_exact (n : nat) (f : dfile) : fres bytes * dfile := df_read_exact_loop n n [] f.

(* 304-331 `Seek::seek` *)
Inductive seek_from := SStart (n : nat) | SEnd (z : Z) | SCur (z : Z).
Definition df_seek (s : seek_from) (f : dfile) : fres nat * dfile :=
  match s with
  | SStart n => (FOk n, set_pos f n)
  | SEnd z => let e := (Z.of_nat (df_len f) + z)%Z in
              if (0 <=? e)%Z then (FOk (Z.to_nat e), set_pos f (Z.to_nat e)) else (FErr Negative, f)
  | SCur z => let e := (Z.of_nat (f_pos f) + z)%Z in
              if (0 <=? e)%Z then (FOk (Z.to_nat e), set_pos f (Z.to_nat e)) else (FErr Negative, f)
  end.

(* 335-358 `Write::write`; the number of bytes taken is returned *)
Definition push_w (f : dfile) (bs : bytes) : dfile :=
  mk_df (f_os f) (f_safe f) (f_end f) (f_w f ++ bs) (f_r f) (f_rs f) (f_pos f) (f_ro f).
Definition df_write (bs : bytes) (f : dfile) : fres nat * dfile :=
  if f_ro f then (FErr ReadOnly, f)
  else
    let f := if wsz <=? length (f_w f) then df_drain f else f in
    let cap := wsz - length (f_w f) in
    if length bs <? cap then (FOk (length bs), push_w f bs)
    else (FOk cap, df_drain (push_w f (firstn cap bs))).

(* std `Write::write_all`: write until nothing is left; a write of 0 bytes is WriteZero *)
Fixpoint df_write_all_loop (fuel : nat) (bs : bytes) (f : dfile) : fres unit * dfile :=
  match bs with
  | [] => (FOk tt, f)
  | _ =>
    match fuel with
    | O => (FErr Stuck, f)
    | S fuel =>
      match df_write bs f with
      | (FErr e, f') => (FErr e, f')
      | (FOk k, f') => if k =? 0 then (FErr WriteZero, f') else df_write_all_loop fuel (skipn k bs) f'
      end
    end
  end.
Definition df_write_all (bs : bytes) (f : dfile) : fres unit * dfile := df_write_all_loop (length bs) bs f.

(* 371-392 `Drop` (not removed): flush and sync, then the file is what the operating system holds *)
Definition df_drop (f : dfile) : dfile := df_sync (df_flush f).

(* ---------- operations a user can issue ---------- *)
Inductive fop :=
  | ORead (n : nat) | OReadExact (n : nat) | OWrite (bs : bytes) | OWriteAll (bs : bytes)
  | OFlush | OSync | OSeek (s : seek_from) | OSetLen (n : nat) | OLen | ORefresh
  | OReopen (ro : bool)       (* drop, then open again *)
  | OGrow (bs : bytes).       (* another handle appends to the file behind a read-only handle's back *)

Inductive fout := RBytes (bs : bytes) | RNum (n : nat) | RUnit | RFail (e : ferr).
Definition out_bytes (r : fres bytes) := match r with FOk b => RBytes b | FErr e => RFail e end.
Definition out_num (r : fres nat) := match r with FOk b => RNum b | FErr e => RFail e end.
Definition out_unit (r : fres unit) := match r with FOk _ => RUnit | FErr e => RFail e end.

Definition df_step (o : fop) (f : dfile) : fout * dfile :=
  match o with
  | ORead n => let '(r, f') := df_read n f in (out_bytes r, f')
  | OReadExact n => let '(r, f') := df_read_exact n f in (out_bytes r, f')
  | OWrite bs => let '(r, f') := df_write bs f in (out_num r, f')
  | OWriteAll bs => let '(r, f') := df_write_all bs f in (out_unit r, f')
  | OFlush => (RUnit, df_flush f)
  | OSync => (RUnit, df_sync f)
  | OSeek s => let '(r, f') := df_seek s f in (out_num r, f')
  | OSetLen n => let '(r, f') := df_set_len n f in (out_unit r, f')
  | OLen => (RNum (df_len f), f)
  | ORefresh => (RUnit, df_refresh f)
  | OReopen ro =>
      let d := df_drop f in
      match df_open (f_os d) (f_safe d) ro with FOk f' => (RUnit, f') | FErr e => (RFail e, d) end
  | OGrow bs =>
      if f_ro f
      then (RUnit, mk_df (f_os f ++ bs) (f_safe f) (f_end f) (f_w f) (f_r f) (f_rs f) (f_pos f) (f_ro f))
      else (RUnit, f)
  end.

Fixpoint df_run (os : list fop) (f : dfile) : list fout * dfile :=
  match os with
  | [] => ([], f)
  | o :: rest => let '(x, f1) := df_step o f in let '(xs, f2) := df_run rest f1 in (x :: xs, f2)
  end.

End Buffers.
