(* What a pack is: a byte file holding records; a record is a value at a start and an end offset. *)
From Verif Require Import Util FileModel PackModel.

Record plog (V : Type) := mk_log {
  l_bytes : bytes;                    (* everything written: the file plus what is still buffered *)
  l_recs : list (nat * nat * V);      (* the records still intact: start, end, value, in append order *)
  l_os : nat;                         (* how many bytes have reached the file *)
  l_safe : nat;                       (* how many bytes a crash cannot take away *)
  l_ro : bool; l_failed : bool }.
Arguments mk_log {V}. Arguments l_bytes {V}. Arguments l_recs {V}. Arguments l_os {V}. Arguments l_safe {V}.
Arguments l_ro {V}. Arguments l_failed {V}.

Definition r_start {V} (r : nat * nat * V) : nat := fst (fst r).
Definition r_end {V} (r : nat * nat * V) : nat := snd (fst r).
Definition r_val {V} (r : nat * nat * V) : V := snd r.

(* the records that end at or before an offset *)
Definition upto {V} (n : nat) (rs : list (nat * nat * V)) : list (nat * nat * V) :=
  filter (fun r => r_end r <=? n) rs.

(* the records follow each other without gaps from offset a to offset b *)
Fixpoint tiles {V} (a : nat) (rs : list (nat * nat * V)) (b : nat) : Prop :=
  match rs with
  | [] => a = b
  | r :: rest => r_start r = a /\ a < r_end r /\ tiles (r_end r) rest b
  end.
Definition last_end {V} (a : nat) (rs : list (nat * nat * V)) : nat := fold_left (fun _ r => r_end r) rs a.

(* a value the codec can write and read back within the record size limit *)
Definition fits {V} (C : codec V) (comp : bool) (v : V) : Prop :=
  exists b, enc C v = Some b /\ (N.of_nat (length b) <= MAX_RECORD_SIZE)%N /\
            (N.of_nat (length (if comp then zip C b else b)) <= MAX_RECORD_SIZE)%N.

(* serialization, compression and checksum behave *)
Record codec_ok {V} (C : codec V) : Prop := {
  co_dec : forall v b, enc C v = Some b -> dec C b = Some v;
  co_zip : forall b, unzip C (zip C b) = Some b;
  co_crc : forall b, (crc C b < 2 ^ 32)%N;
  co_uid : forall i, (guid C i < 2 ^ 64)%N }.

Section Steps.
Context {V : Type}.
Implicit Types L : plog V.
Variable ser : V -> Prop.      (* the values the codec can serialize *)

Definition relog L b rs os safe : plog V := mk_log b rs os safe (l_ro L) (l_failed L).

Inductive log_step : plog V -> pop (V := V) -> pout -> plog V -> Prop :=
  (* append: the record starts at the old length; nothing before it changes *)
  | LAppend L v fr os :
      l_ro L = false -> l_failed L = false -> ser v -> fr <> [] ->
      l_os L <= os -> os <= length (l_bytes L ++ fr) ->
      log_step L (OAppend v) (XPos (length (l_bytes L)))
        (relog L (l_bytes L ++ fr)
           (l_recs L ++ [(length (l_bytes L), length (l_bytes L ++ fr), v)]) os (l_safe L))
  | LAppendRo L v : l_ro L = true -> log_step L (OAppend v) (XFail EReadOnly) L
  | LAppendFailed L v : l_ro L = false -> l_failed L = true -> log_step L (OAppend v) (XFail EWrite) L
  (* a value that does not serialize: nothing is written, the pack refuses further appends *)
  | LAppendBad L v :
      l_ro L = false -> l_failed L = false -> ~ ser v ->
      log_step L (OAppend v) (XFail EWrite) (mk_log (l_bytes L) (l_recs L) (l_os L) (l_safe L) (l_ro L) true)
  (* fetch at the start of an intact record returns its value; elsewhere nothing is promised *)
  | LFetch L p q v : In (p, q, v) (l_recs L) -> log_step L (OFetch p) (XVal v) L
  | LFetchOther L p x : (forall r, In r (l_recs L) -> r_start r <> p) -> log_step L (OFetch p) x L
  | LSize L p q v : In (p, q, v) (l_recs L) -> log_step L (OSize p) (XNum (N.of_nat (q - p))) L
  | LSizeOther L p x : (forall r, In r (l_recs L) -> r_start r <> p) -> log_step L (OSize p) x L
  | LBytes L a b :
      a <= b -> b <= length (l_bytes L) -> log_step L (OBytes a b) (XBytes (slice (l_bytes L) a (b - a))) L
  | LBytesRange L a b : b < a \/ length (l_bytes L) < b -> log_step L (OBytes a b) (XFail ERange) L
  | LFlush L : log_step L OFlushP XUnit (relog L (l_bytes L) (l_recs L) (length (l_bytes L)) (l_safe L))
  | LCommit L :
      l_ro L = false -> l_failed L = false ->
      log_step L OCommit XUnit (relog L (l_bytes L) (l_recs L) (length (l_bytes L)) (length (l_bytes L)))
  | LCommitRo L : l_ro L = true -> log_step L OCommit (XFail EReadOnly) L
  | LCommitFailed L : l_ro L = false -> l_failed L = true -> log_step L OCommit (XFail EWrite) L
  (* truncation keeps exactly the records that lie before the new end *)
  | LTruncate L n :
      l_ro L = false ->
      log_step L (OTruncate n) XUnit
        (relog L (firstn n (l_bytes L) ++ repeat 0%N (n - length (l_bytes L))) (upto n (l_recs L)) n (Nat.min (l_safe L) n))
  | LTruncateRo L n : l_ro L = true -> log_step L (OTruncate n) (XFail (EIo OsErr)) L
  | LLen L : log_step L OLenP (XPos (length (l_bytes L))) L
  (* iteration yields, in order, the records that lie completely in the file; a partial record at the end of the
     file is reported unless fewer than 4 bytes of it are there *)
  | LIter L e :
      tiles DATA_HEADER_BYTES (l_recs L) (length (l_bytes L)) ->
      (e = None <-> l_os L < last_end DATA_HEADER_BYTES (upto (l_os L) (l_recs L)) + 4) ->
      log_step L OIter (XVals (map r_val (upto (l_os L) (l_recs L))) e) L
  (* when the records do not tile the file (something was left behind by a truncation inside a record), iteration
     still starts with the records before the gap *)
  | LIterGap L vs e :
      ~ tiles DATA_HEADER_BYTES (l_recs L) (length (l_bytes L)) ->
      (forall good rest b, l_recs L = good ++ rest -> tiles DATA_HEADER_BYTES good b -> b <= l_os L ->
         exists more, vs = map r_val good ++ more) ->
      log_step L OIter (XVals vs e) L
  | LReopen L ro :
      log_step L (OReopenP ro) XUnit
        (mk_log (l_bytes L) (l_recs L) (length (l_bytes L)) (if l_ro L then l_safe L else length (l_bytes L)) ro false)
  (* a crash keeps some m bytes of the file, never fewer than the safe ones *)
  | LCrash L n m :
      l_safe L <= m <= l_os L ->
      log_step L (OCrash n) XUnit
        (mk_log (firstn m (l_bytes L)) (upto m (l_recs L)) m (l_safe L) (l_ro L) false).

Inductive log_run : plog V -> list (pop (V := V)) -> list pout -> plog V -> Prop :=
  | LR_nil L : log_run L [] [] L
  | LR_cons L o x L1 os xs L2 : log_step L o x L1 -> log_run L1 os xs L2 -> log_run L (o :: os) (x :: xs) L2.
End Steps.

(* operations that keep the 28-byte header and append only values that fit (or do not serialize at all) *)
Definition pop_ok {V} (C : codec V) (comp : bool) (o : pop (V := V)) : Prop :=
  match o with
  | OAppend v => fits C comp v \/ enc C v = None
  | OTruncate n | OCrash n => DATA_HEADER_BYTES <= n
  | _ => True
  end.

(* the appended values still there, with the positions their appends returned, read off a trace: a truncation to n
   removes the records at n and after *)
Fixpoint survivors {V} (acc : list (nat * V)) (ops : list (pop (V := V))) (outs : list (pout (V := V))) : list (nat * V) :=
  match ops, outs with
  | OAppend v :: os, XPos p :: xs => survivors (acc ++ [(p, v)]) os xs
  | OTruncate n :: os, XUnit :: xs => survivors (filter (fun e => fst e <? n) acc) os xs
  | _ :: os, _ :: xs => survivors acc os xs
  | _, _ => acc
  end.

(* every truncation of the trace is to a position an append returned (and that is still there); no crash *)
Fixpoint at_boundaries {V} (acc : list (nat * V)) (ops : list (pop (V := V))) (outs : list (pout (V := V))) : Prop :=
  match ops, outs with
  | OCrash _ :: _, _ => False
  | OAppend v :: os, XPos p :: xs => at_boundaries (acc ++ [(p, v)]) os xs
  | OTruncate n :: os, XUnit :: xs => In n (map fst acc) /\ at_boundaries (filter (fun e => fst e <? n) acc) os xs
  | _ :: os, _ :: xs => at_boundaries acc os xs
  | _, _ => True
  end.

(* operations that cannot remove a record ending at offset q: no crash, no truncation below q *)
Definition keeps {V} (q : nat) (o : pop (V := V)) : Prop :=
  match o with OCrash _ => False | OTruncate n => q <= n | _ => True end.
(* the same, crashes allowed *)
Definition keeps_or_crash {V} (q : nat) (o : pop (V := V)) : Prop :=
  match o with OTruncate n => q <= n | _ => True end.

(* the bytes of a file at offset p are a length, that many bytes and a matching checksum, and the bytes decode to v *)
Definition sound_record {V} (C : codec V) (comp : bool) (file : bytes) (p q : nat) (v : V) : Prop :=
  exists lenb b sum d,
    firstn (q - p) (skipn p file) = lenb ++ b ++ sum /\ q = p + 8 + length b /\ q <= length file /\
    length lenb = 4 /\ length sum = 4 /\ unle lenb = N.of_nat (length b) /\ unle sum = crc C (lenb ++ b) /\
    (if comp then unzip C b = Some d else d = b) /\ dec C d = Some v.
(* values stored one after the other from offset a *)
Fixpoint sound_records {V} (C : codec V) (comp : bool) (file : bytes) (a : nat) (vs : list V) : Prop :=
  match vs with
  | [] => True
  | v :: rest => exists q, sound_record C comp file a q v /\ sound_records C comp file q rest
  end.
