(* What a position index is: a list that grows at its end. *)
From Verif Require Import Util FileModel PackModel PosModel.

Record arr (T : Type) := mk_arr {
  a_vals : list T;
  a_safe : nat;      (* how many entries a crash cannot take away *)
  a_ro : bool }.
Arguments mk_arr {T}. Arguments a_vals {T}. Arguments a_safe {T}. Arguments a_ro {T}.

Inductive arr_step {T} : arr T -> iop (T := T) -> iout -> arr T -> Prop :=
  (* only the next key can be saved *)
  | ASave s v n : n = length (a_vals s) -> a_ro s = false -> arr_step s (JSave n v) YUnit (mk_arr (a_vals s ++ [v]) (a_safe s) false)
  | ASaveBad s n v : n <> length (a_vals s) -> arr_step s (JSave n v) (YFail INotNext) s
  | ASaveRo s v n : n = length (a_vals s) -> a_ro s = true -> arr_step s (JSave n v) (YFail (IIo ReadOnly)) s
  | ALoad s n v : nth_error (a_vals s) n = Some v -> arr_step s (JLoad n) (YVal v) s
  | ALoadNone s n : nth_error (a_vals s) n = None -> arr_step s (JLoad n) (YFail INotFound) s
  | ALen s : arr_step s JLen (YNum (length (a_vals s))) s
  (* the first n entries in order; the last n in reverse order *)
  | AIter s n : arr_step s (JIter n) (YVals (map Some (firstn n (a_vals s)))) s
  | ARevIter s n : arr_step s (JRevIter n) (YVals (map Some (firstn n (rev (a_vals s))))) s
  (* entries 0..k stay *)
  | ATrunc s k : k < length (a_vals s) -> a_ro s = false ->
      arr_step s (JTruncTo k) YUnit (mk_arr (firstn (S k) (a_vals s)) (Nat.min (a_safe s) (S k)) false)
  | ATruncNop s k : length (a_vals s) <= k -> arr_step s (JTruncTo k) YUnit s
  | ATruncRo s k : k < length (a_vals s) -> a_ro s = true -> arr_step s (JTruncTo k) (YFail (IIo OsErr)) s
  | ATruncAll s : a_ro s = false -> arr_step s JTruncAll YUnit (mk_arr [] 0 false)
  | ATruncAllRo s : a_ro s = true -> arr_step s JTruncAll (YFail (IIo OsErr)) s
  | ASync s : arr_step s JSync YUnit (mk_arr (a_vals s) (length (a_vals s)) (a_ro s))
  | AReopen s ro : arr_step s (JReopen ro) YUnit (mk_arr (a_vals s) (length (a_vals s)) ro)
  (* a crash keeps some j entries, never fewer than the safe ones; the rest of the file is dropped *)
  | ACrash s n j : a_safe s <= j <= length (a_vals s) ->
      arr_step s (JCrash n) YUnit (mk_arr (firstn j (a_vals s)) (a_safe s) (a_ro s)).

Inductive arr_run {T} : arr T -> list (iop (T := T)) -> list iout -> arr T -> Prop :=
  | AR_nil s : arr_run s [] [] s
  | AR_cons s o x s1 os xs s2 : arr_step s o x s1 -> arr_run s1 os xs s2 -> arr_run s (o :: os) (x :: xs) s2.

(* decoding inverts encoding on the values that may be saved, and encodings have the declared length *)
Record pcodec_ok {T} (P : pcodec T) (good : T -> Prop) : Prop := {
  pco_pos : 0 < pc_len P;
  pco_len : forall v, length (pc_enc P v) = pc_len P;
  pco_dec : forall v, good v -> pc_dec P (pc_enc P v) = Some v }.

(* saved values are good; a crash does not leave a partial header (see C25_torn_header_refuted) *)
Definition iop_ok {T} (good : T -> Prop) (o : iop (T := T)) : Prop :=
  match o with JSave _ v => good v | JCrash n => n = 0 \/ PDX_HEADER_SIZE <= n | _ => True end.
