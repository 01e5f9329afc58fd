(* Model of crates/storage/src/archive/position_index/index.rs: `PositionIndex<T>`, a fixed-stride file over `DataFile`.
   Keys and lengths are nat (the code: u64/usize, no overflow modelled). *)
From Verif Require Import Util FileModel PackModel.

Definition PDX_HEADER_SIZE : nat := 26.                                   (* 21 *)
Definition telcoinx : bytes := [116; 101; 108; 99; 111; 105; 110; 120]%N.  (* b"telcoinx" *)

(* 339-345 trait `PosIndexValue` *)
Record pcodec (T : Type) := mk_pc {
  pc_len : nat;                   (* buffer_len *)
  pc_enc : T -> bytes;            (* encode *)
  pc_dec : bytes -> option T }.   (* decode *)
Arguments pc_len {T}. Arguments pc_enc {T}. Arguments pc_dec {T}.

(* 347-367 u64 *)
Definition u64_pc : pcodec N := mk_pc N 8 (le 8) (fun b => Some (unle b)).
(* 369-393 (u64, u64) *)
Definition pair_pc : pcodec (N * N) :=
  mk_pc (N * N) 16 (fun v => le 8 (fst v) ++ le 8 (snd v)) (fun b => Some (unle (slice b 0 8), unle (slice b 8 8))).

Inductive ierr :=
  | IIo (e : ferr) | INotNext | INotFound | IDecode
  | IHdrCrc | IHdrType | IHdrVersion | IHdrApp | IHdrUid | IReadOnlyEmpty | IGeometry.
Inductive ires (A : Type) := IOk (a : A) | IFail (e : ierr).
Arguments IOk {A}. Arguments IFail {A}.
Definition io {A} (r : fres A) : ires A := match r with FOk a => IOk a | FErr e => IFail (IIo e) end.

Section Pos.
Context {T : Type}.
Variable P : pcodec T.
Variable crcf : bytes -> N.
Variable rsz wsz : nat.
Variable dh : header.       (* the DataHeader of the pack this index belongs to *)

(* 36-43 `from_data_header`, 78-92 `write_header`, crc.rs 26-36 `add_crc32` *)
Definition pdx_body : bytes := telcoinx ++ le 2 (h_version dh) ++ le 8 (h_uid dh) ++ le 4 (h_app dh).
Definition pdx_header : bytes := pdx_body ++ le 4 (crcf pdx_body).

(* 48-75 `load_header` and 161-170 of `open_pdx_file`, on the 26 bytes read *)
Definition pdx_check (b : bytes) : ires unit :=
  if negb (unle (slice b 22 4) =? crcf (slice b 0 22))%N then IFail IHdrCrc
  else if negb (if list_eq_dec N.eq_dec (slice b 0 8) telcoinx then true else false) then IFail IHdrType
  else if negb (unle (slice b 8 2) =? h_version dh)%N then IFail IHdrVersion
  else if negb (unle (slice b 18 4) =? h_app dh)%N then IFail IHdrApp
  else if negb (unle (slice b 10 8) =? h_uid dh)%N then IFail IHdrUid
  else IOk tt.

(* 197-200 `len` *)
Definition pdx_len (f : dfile) : nat := (df_len f - PDX_HEADER_SIZE) / pc_len P.

(* 127-194 `open_pdx_file` on a file with contents os; creating the directory and its fsync are not modelled *)
Definition pdx_open (os : bytes) (safe : nat) (ro : bool) : ires dfile :=
  match df_open rsz os safe ro with
  | FErr e => IFail (IIo e)
  | FOk f =>
    let r :=
      if df_len f =? 0
      then if ro then IFail IReadOnlyEmpty
           else match df_write_all wsz pdx_header (snd (df_seek (SStart 0) f)) with
                | (FErr e, _) => IFail (IIo e)
                | (FOk _, f1) => IOk f1
                end
      else match df_read_exact rsz PDX_HEADER_SIZE (snd (df_seek (SStart 0) f)) with
           | (FErr e, _) => IFail (IIo e)
           | (FOk b, f1) => match pdx_check b with IFail e => IFail e | IOk _ => IOk f1 end
           end in
    match r with
    | IFail e => IFail e
    | IOk f1 =>
      if negb ((df_len f1 - PDX_HEADER_SIZE) mod pc_len P =? 0)
      then if ro then IFail IGeometry
           else match df_set_len rsz (PDX_HEADER_SIZE + pdx_len f1 * pc_len P) f1 with
                | (FErr e, _) => IFail (IIo e)
                | (FOk _, f2) => IOk f2
                end
      else IOk f1
    end
  end.

(* 247-261 `save` *)
Definition pdx_save (key : nat) (v : T) (f : dfile) : ires unit * dfile :=
  if negb (pdx_len f =? key) then (IFail INotNext, f)
  else let '(r, f') := df_write_all wsz (pc_enc P v) f in (io r, f').

(* 263-273 `load` *)
Definition pdx_load (key : nat) (f : dfile) : ires T * dfile :=
  if pdx_len f <=? key then (IFail INotFound, f)
  else match df_read_exact rsz (pc_len P) (snd (df_seek (SStart (PDX_HEADER_SIZE + key * pc_len P)) f)) with
       | (FErr e, f') => (IFail (IIo e), f')
       | (FOk b, f') => match pc_dec P b with Some v => (IOk v, f') | None => (IFail IDecode, f') end
       end.

(* 230-237 `truncate_to_index`, 240-243 `truncate_all` *)
Definition pdx_truncate_to (key : nat) (f : dfile) : ires unit * dfile :=
  if pdx_len f <=? key then (IOk tt, f)
  else let '(r, f') := df_set_len rsz (PDX_HEADER_SIZE + key * pc_len P + pc_len P) f in (io r, f').
Definition pdx_truncate_all (f : dfile) : ires unit * dfile :=
  let '(r, f') := df_set_len rsz PDX_HEADER_SIZE f in (io r, f').

(* 275-279 `sync` *)
Definition pdx_sync (f : dfile) : dfile := df_sync (df_flush f).

(* 283-304 `PositionIter`, 306-327 its `next`, until it is done *)
Record piter := mk_pit { it_data : bytes; it_pos : nat; it_done : bool; it_rev : bool }.
Definition it_new (data : bytes) : piter := mk_pit data 0 (length data =? 0) false.
Definition it_new_rev (data : bytes) : piter := mk_pit data (length data - pc_len P) (length data =? 0) true.
Definition it_next (i : piter) : option (option T) * piter :=
  if it_done i then (None, i)
  else
    let b := slice (it_data i) (it_pos i) (pc_len P) in
    let i' := if it_rev i
              then mk_pit (it_data i) (it_pos i - pc_len P) (it_pos i =? 0) true
              else mk_pit (it_data i) (it_pos i + pc_len P) (length (it_data i) <=? it_pos i + pc_len P) false in
    (Some (pc_dec P b), i').
Fixpoint it_all (fuel : nat) (i : piter) : list (option T) :=
  match fuel with
  | O => []
  | S fuel => match it_next i with (None, _) => [] | (Some v, i') => v :: it_all fuel i' end
  end.

(* 208-215 `iter`, 218-225 `rev_iter`; the iterator owns its bytes, so running it at once loses nothing *)
Definition pdx_iter (n : nat) (f : dfile) : ires (list (option T)) * dfile :=
  let k := if n <? pdx_len f then n else pdx_len f in
  match df_read_exact rsz (k * pc_len P) (snd (df_seek (SStart PDX_HEADER_SIZE) f)) with
  | (FErr e, f') => (IFail (IIo e), f')
  | (FOk d, f') => (IOk (it_all (S (length d)) (it_new d)), f')
  end.
Definition pdx_rev_iter (n : nat) (f : dfile) : ires (list (option T)) * dfile :=
  let k := if n <? pdx_len f then n else pdx_len f in
  match df_seek (SEnd (- (Z.of_nat k * Z.of_nat (pc_len P)))) f with
  | (FErr e, f1) => (IFail (IIo e), f1)
  | (FOk _, f1) =>
    match df_read_exact rsz (k * pc_len P) f1 with
    | (FErr e, f') => (IFail (IIo e), f')
    | (FOk d, f') => (IOk (it_all (S (length d)) (it_new_rev d)), f')
    end
  end.

(* ---------- operations ---------- *)
Inductive iop :=
  | JSave (key : nat) (v : T) | JLoad (key : nat) | JLen | JIter (n : nat) | JRevIter (n : nat)
  | JTruncTo (key : nat) | JTruncAll | JSync
  | JReopen (ro : bool)       (* drop, then open again *)
  | JCrash (n : nat).         (* the process dies, n bytes of the file (at least the synced ones) survive; opened again *)
Inductive iout := YUnit | YVal (v : T) | YNum (n : nat) | YVals (vs : list (option T)) | YFail (e : ierr).
Definition yof {A} (g : A -> iout) (r : ires A) : iout := match r with IOk a => g a | IFail e => YFail e end.

Definition pdx_step (o : iop) (f : dfile) : iout * dfile :=
  match o with
  | JSave k v => let '(r, f') := pdx_save k v f in (yof (fun _ => YUnit) r, f')
  | JLoad k => let '(r, f') := pdx_load k f in (yof YVal r, f')
  | JLen => (YNum (pdx_len f), f)
  | JIter n => let '(r, f') := pdx_iter n f in (yof YVals r, f')
  | JRevIter n => let '(r, f') := pdx_rev_iter n f in (yof YVals r, f')
  | JTruncTo k => let '(r, f') := pdx_truncate_to k f in (yof (fun _ => YUnit) r, f')
  | JTruncAll => let '(r, f') := pdx_truncate_all f in (yof (fun _ => YUnit) r, f')
  | JSync => (YUnit, pdx_sync f)
  | JReopen ro =>
      let d := df_drop f in
      match pdx_open (f_os d) (f_safe d) ro with IOk f' => (YUnit, f') | IFail e => (YFail e, d) end
  | JCrash n =>
      let os := firstn (Nat.max (f_safe f) n) (f_os f) in
      match pdx_open os (Nat.min (f_safe f) (length os)) (f_ro f) with IOk f' => (YUnit, f') | IFail e => (YFail e, f) end
  end.
Fixpoint pdx_run (ops : list iop) (f : dfile) : list iout * dfile :=
  match ops with
  | [] => ([], f)
  | o :: rest => let '(x, f1) := pdx_step o f in let '(xs, f2) := pdx_run rest f1 in (x :: xs, f2)
  end.
End Pos.
Arguments JSave {T}. Arguments JLoad {T}. Arguments JLen {T}. Arguments JIter {T}. Arguments JRevIter {T}.
Arguments JTruncTo {T}. Arguments JTruncAll {T}. Arguments JSync {T}. Arguments JReopen {T}. Arguments JCrash {T}.
Arguments YUnit {T}. Arguments YVal {T}. Arguments YNum {T}. Arguments YVals {T}. Arguments YFail {T}.
