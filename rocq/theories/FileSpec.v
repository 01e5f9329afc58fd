(* What a file is: a byte array with a cursor, appended to at its end. Nothing here mentions buffers. *)
From Verif Require Import Util FileModel.

Record plain := mk_plain {
  p_bytes : bytes;      (* what this handle sees *)
  p_more : bytes;       (* appended by another handle, not yet seen (read-only handles only) *)
  p_pos : nat; p_ro : bool }.

Definition at_pos (p : plain) (n : nat) : plain := mk_plain (p_bytes p) (p_more p) n (p_ro p).
Definition with_bytes (p : plain) (b : bytes) : plain := mk_plain b (p_more p) (p_pos p) (p_ro p).

(* one operation, its answer and the file after it *)
Inductive plain_step : plain -> fop -> fout -> plain -> Prop :=
  (* a read of n > 0 bytes returns some of the bytes at the cursor, none only at the end of the file *)
  | PRead p n bs :
      bs = slice (p_bytes p) (p_pos p) (length bs) -> length bs <= n ->
      (bs = [] -> n = 0 \/ length (p_bytes p) <= p_pos p) ->
      plain_step p (ORead n) (RBytes bs) (at_pos p (p_pos p + length bs))
  (* an exact read returns exactly the n bytes at the cursor, or reports the end of the file *)
  | PReadExact p n :
      n = 0 \/ p_pos p + n <= length (p_bytes p) ->
      plain_step p (OReadExact n) (RBytes (slice (p_bytes p) (p_pos p) n)) (at_pos p (p_pos p + n))
  | PReadEof p n :
      0 < n -> length (p_bytes p) < p_pos p + n ->
      plain_step p (OReadExact n) (RFail Eof) (at_pos p (Nat.max (p_pos p) (length (p_bytes p))))
  (* a write appends a prefix of its argument, a nonempty one unless the argument is empty *)
  | PWrite p bs k :
      p_ro p = false -> k <= length bs -> (k = 0 -> bs = []) ->
      plain_step p (OWrite bs) (RNum k) (with_bytes p (p_bytes p ++ firstn k bs))
  | PWriteRo p bs : p_ro p = true -> plain_step p (OWrite bs) (RFail ReadOnly) p
  | PWriteAll p bs :
      p_ro p = false \/ bs = [] ->
      plain_step p (OWriteAll bs) RUnit (with_bytes p (p_bytes p ++ bs))
  | PWriteAllRo p bs : p_ro p = true -> bs <> [] -> plain_step p (OWriteAll bs) (RFail ReadOnly) p
  | PFlush p : plain_step p OFlush RUnit p
  | PSync p : plain_step p OSync RUnit p
  | PSeekStart p n : plain_step p (OSeek (SStart n)) (RNum n) (at_pos p n)
  | PSeekEnd p z n :
      Z.of_nat n = (Z.of_nat (length (p_bytes p)) + z)%Z -> plain_step p (OSeek (SEnd z)) (RNum n) (at_pos p n)
  | PSeekEndNeg p z :
      (Z.of_nat (length (p_bytes p)) + z < 0)%Z -> plain_step p (OSeek (SEnd z)) (RFail Negative) p
  | PSeekCur p z n :
      Z.of_nat n = (Z.of_nat (p_pos p) + z)%Z -> plain_step p (OSeek (SCur z)) (RNum n) (at_pos p n)
  | PSeekCurNeg p z :
      (Z.of_nat (p_pos p) + z < 0)%Z -> plain_step p (OSeek (SCur z)) (RFail Negative) p
  (* setting the length cuts the array or extends it with zeros; the cursor stays *)
  | PSetLen p n :
      p_ro p = false ->
      plain_step p (OSetLen n) RUnit
        (with_bytes p (firstn n (p_bytes p) ++ repeat 0%N (n - length (p_bytes p))))
  | PSetLenRo p n : p_ro p = true -> plain_step p (OSetLen n) (RFail OsErr) p
  | PLen p : plain_step p OLen (RNum (length (p_bytes p))) p
  | PRefresh p : plain_step p ORefresh RUnit (mk_plain (p_bytes p ++ p_more p) [] (p_pos p) (p_ro p))
  | PReopen p ro : plain_step p (OReopen ro) RUnit (mk_plain (p_bytes p ++ p_more p) [] 0 ro)
  | PGrow p bs :
      plain_step p (OGrow bs) RUnit (mk_plain (p_bytes p) (p_more p ++ (if p_ro p then bs else [])) (p_pos p) (p_ro p)).

Inductive plain_run : plain -> list fop -> list fout -> plain -> Prop :=
  | PR_nil p : plain_run p [] [] p
  | PR_cons p o x p1 os xs p2 :
      plain_step p o x p1 -> plain_run p1 os xs p2 -> plain_run p (o :: os) (x :: xs) p2.
