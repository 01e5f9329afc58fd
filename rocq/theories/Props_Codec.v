(** C64: messages on the wire. *)
From Verif Require Import Util CodecModel CodecSpec CodecProofs CodecMsg.
Local Open Scope N_scope.

Section R.
Variable M : Type.
Variable dec : bytes -> option M.
Variable blk_d : bytes -> option bytes.
Variable crc : bytes -> N.
Notation decode := (decode_message M dec blk_d crc).
Notation OnWire := (OnWire M dec blk_d crc).

(** The outcome does not depend on how the bytes were cut, nor on what was read before. *)
Theorem C64_segmentation r r' db cb db' cb' max : honest_io r -> honest_io r' -> arrived r = arrived r' -> fin r = fin r' ->
  let x := decode r db cb max in let y := decode r' db' cb' max in
  d_out x = d_out y /\ d_dec x = d_dec y /\ d_comp x = d_comp y /\ arrived (d_io x) = arrived (d_io y).
Proof using All.
  intros H H' Ea Ef x y. destruct (decode_pure M dec blk_d crc r db cb max H) as [E _].
  destruct (decode_pure M dec blk_d crc r' db' cb' max H') as [E' _]. fold x in E. fold y in E'.
  rewrite <- Ea, <- Ef, E in E'. injection E' as -> -> -> ->. auto.
Qed.

(** A length prefix over the limit is refused after four bytes, whatever follows. *)
Theorem C64_oversize r db cb max u t : honest_io r -> arrived r = le 4 u ++ t -> u < 2 ^ 32 -> max < u ->
  d_out (decode r db cb max) = Err ETooLarge /\ arrived (d_io (decode r db cb max)) = t /\
  d_dec (decode r db cb max) = [] /\ d_comp (decode r db cb max) = [].
Proof using All.
  intros H Ea Hu Hm. destruct (decode_pure M dec blk_d crc r db cb max H) as [E _]. rewrite Ea in E. unfold dpure in E.
  destruct (cut4 u t Hu) as [E1 [E2 [E3 E4]]]. destruct (Nat.leb_spec 4 (length (le 4 u ++ t))); [|lia].
  cbv zeta in E. rewrite E1, E4, E2 in E. destruct (N.ltb_spec max u); [|lia]. injection E as <- <- <- <-. auto.
Qed.

(** A body longer than any compression of the announced length is refused after eight. *)
Theorem C64_overlong_body r db cb max u c t : honest_io r -> arrived r = le 4 u ++ le 4 c ++ t -> u < 2 ^ 32 -> c < 2 ^ 32 ->
  u <= max -> body_limit u < c ->
  d_out (decode r db cb max) = Err ECompressed /\ arrived (d_io (decode r db cb max)) = t /\
  d_dec (decode r db cb max) = [] /\ d_comp (decode r db cb max) = [].
Proof using All.
  intros H Ea Hu Hc Hm Hl. destruct (decode_pure M dec blk_d crc r db cb max H) as [E _]. rewrite Ea in E. unfold dpure in E.
  destruct (cut4 u (le 4 c ++ t) Hu) as [E1 [E2 [E3 E4]]]. destruct (Nat.leb_spec 4 (length (le 4 u ++ le 4 c ++ t))); [|lia].
  cbv zeta in E. rewrite E1, E4, E2 in E. destruct (N.ltb_spec max u); [lia|].
  destruct (cut4 c t Hc) as [F1 [F2 [F3 F4]]]. destruct (Nat.leb_spec 4 (length (le 4 c ++ t))); [|lia].
  rewrite F1, F4, F2, max_compress_len_limit in E. destruct (N.ltb_spec (body_limit u) c); [|lia]. injection E as <- <- <- <-. auto.
Qed.

(** At every moment, for every peer: the compressed buffer holds no more than the body bytes that arrived, and no more than what
    the limit grants; the decompressed one holds at most the limit and nothing before the body is complete.  No more bytes are taken
    from the stream than one message of the limit can have. *)
Theorem C64_memory r db cb max : honest_io r -> limit_ok max ->
  let x := decode r db cb max in
  lenN (d_dec x) <= max /\ (d_out x = Wait -> d_dec x = []) /\
  lenN (d_comp x) <= body_limit max /\ (d_comp x = [] \/ lenN (d_comp x) + 8 <= lenN (arrived r)) /\
  exists taken, arrived r = taken ++ arrived (d_io x) /\ lenN taken <= 8 + body_limit max.
Proof using All.
  intros H HL x. destruct (decode_pure M dec blk_d crc r db cb max H) as [E _]. fold x in E.
  set (a := arrived r) in *. unfold dpure in E.
  assert (B0 : 32 <= body_limit max).
  { unfold body_limit. unfold limit_ok in HL. destruct (N.ltb_spec (32 + max + max / 6) (2 ^ 32)); lia. }
  destruct (Nat.leb_spec 4 (length a)) as [L|L].
  2:{ injection E as E1 <- <- <-. change (lenN []) with 0. split; [lia|]. split; [auto|]. split; [lia|]. split; [auto|].
      exists a. rewrite app_nil_r. split; [auto|]. unfold lenN. lia. }
  cbv zeta in E. set (u := of_le (firstn 4 a)) in *. set (a1 := skipn 4 a) in *.
  assert (Ea : a = firstn 4 a ++ a1) by (symmetry; apply firstn_skipn).
  assert (L4 : lenN (firstn 4 a) = 4) by (unfold lenN; rewrite firstn_length; lia).
  destruct (N.ltb_spec max u) as [A|A].
  { injection E as E1 <- <- <-. change (lenN []) with 0. split; [lia|]. split; [auto|]. split; [lia|]. split; [auto|].
    exists (firstn 4 a). split; [auto|]. lia. }
  destruct (Nat.leb_spec 4 (length a1)) as [L1|L1].
  2:{ injection E as E1 <- <- <-. change (lenN []) with 0. split; [lia|]. split; [auto|]. split; [lia|]. split; [auto|].
      exists a. rewrite app_nil_r. split; [auto|]. rewrite Ea, lenN_app, L4. unfold lenN. lia. }
  set (c := of_le (firstn 4 a1)) in *. set (a2 := skipn 4 a1) in *.
  assert (Ea1 : a1 = firstn 4 a1 ++ a2) by (symmetry; apply firstn_skipn).
  assert (L4' : lenN (firstn 4 a1) = 4) by (unfold lenN; rewrite firstn_length; lia).
  rewrite max_compress_len_limit in E. destruct (N.ltb_spec (body_limit u) c) as [B|B].
  { injection E as E1 <- <- <-. change (lenN []) with 0. split; [lia|]. split; [auto|]. split; [lia|]. split; [auto|].
    exists (firstn 4 a ++ firstn 4 a1). rewrite <- app_assoc, <- Ea1, <- Ea. split; [auto|]. rewrite lenN_app. lia. }
  pose proof (body_limit_mono u max A HL) as BM.
  destruct (Nat.leb_spec (N.to_nat c) (length a2)) as [L2|L2].
  2:{ injection E as E1 <- <- <-. change (lenN []) with 0. split; [lia|]. split; [auto|]. split; [unfold lenN; lia|].
      split; [right; rewrite Ea, Ea1, !lenN_app; lia|].
      exists a. rewrite app_nil_r. split; [auto|]. rewrite Ea, Ea1, !lenN_app. unfold lenN at 3. lia. }
  pose proof (inflate_bound blk_d crc (S (length (firstn (N.to_nat c) a2))) u false (firstn (N.to_nat c) a2) []) as IB.
  fold (inflate blk_d crc u (firstn (N.to_nat c) a2)) in IB.
  destruct (inflate blk_d crc u (firstn (N.to_nat c) a2)) as [ok p]. cbn [snd] in IB.
  assert (Lc : lenN (firstn (N.to_nat c) a2) = c) by (apply lenN_firstn; unfold lenN; lia).
  injection E as E1 <- <- <-. split; [lia|]. split.
  { intros E2. exfalso. rewrite E2 in E1. destruct ok; [|discriminate]. simpl in E1.
    destruct (negb (lenN p =? u)); [discriminate|]. destruct (dec p); discriminate. }
  split; [lia|]. split; [right; rewrite Ea, Ea1, !lenN_app, Lc; rewrite <- (firstn_skipn (N.to_nat c) a2), lenN_app, Lc; lia|].
  exists (firstn 4 a ++ firstn 4 a1 ++ firstn (N.to_nat c) a2). rewrite <- !app_assoc, firstn_skipn, <- Ea1, <- Ea. split; [auto|].
  rewrite !lenN_app. lia.
Qed.

Hypothesis crc32 : forall d, crc d < 2 ^ 32.
(** Whatever the segments and the state of the buffers, a reader accepts exactly the bytes of a message and takes exactly those. *)
Theorem C64_decode_exact r db cb max m rest : honest_io r -> Forall is_byte (arrived r) ->
  (d_out (decode r db cb max) = Msg m /\ arrived (d_io (decode r db cb max)) = rest <->
   exists w, arrived r = w ++ rest /\ OnWire max w m).
Proof using All.
  intros H Hb. destruct (decode_pure M dec blk_d crc r db cb max H) as [E _].
  rewrite <- (dpure_exact M dec blk_d crc crc32 (fin r) max (arrived r) m rest Hb). rewrite E. split.
  - intros [-> ->]. eauto.
  - intros [p [body F]]. injection F as -> _ _ ->. auto.
Qed.

(** Bytes mean one message: no message's bytes begin those of another. *)
Theorem C64_unambiguous max max' w w' m m' t : Forall is_byte w' -> OnWire max w m -> OnWire max' w' m' -> w' = w ++ t ->
  t = [] /\ m = m'.
Proof using All.
  intros Hb Hw Hw' E.
  assert (Mono : forall a b x y, a <= b -> OnWire a x y -> OnWire b x y).
  { intros a b x y L [u [bo [p [? [? [? [? [? [? ?]]]]]]]]]. exists u, bo, p. repeat split; auto. lia. }
  set (mx := N.max max max'). apply (Mono _ mx) in Hw; [|unfold mx; lia]. apply (Mono _ mx) in Hw'; [|unfold mx; lia].
  destruct (proj2 (dpure_exact M dec blk_d crc crc32 Closed mx w' m t Hb)) as [p [bo D]]; [eauto|].
  destruct (proj2 (dpure_exact M dec blk_d crc crc32 Closed mx w' m' [] Hb)) as [p' [bo' D']].
  { exists w'. rewrite app_nil_r. auto. }
  rewrite D in D'. injection D' as -> _ _ ->. auto.
Qed.
End R.

Section W.
Variable M : Type.
Variable enc : M -> option bytes.
Variable blk_c : bytes -> bytes.
Variable crc : bytes -> N.
Notation encode := (encode_message M enc blk_c crc).
Notation sendable := (sendable M enc).
Notation write_all := (write_all M enc blk_c crc).

(** A message is written exactly if its encoding exists and fits; nothing is written otherwise. *)
Theorem C64_encode_exact m eb cb max : (exists w, fst (fst (encode m eb cb max)) = Some w) <-> sendable max m.
Proof using All.
  unfold encode_message, CodecSpec.sendable. cbv zeta. destruct (enc m) as [b|]; cbn [app].
  - destruct (N.ltb_spec max (lenN b)); cbn [fst]; split.
    + intros [w E]; discriminate.
    + intros [b' [E L]]. injection E as <-. lia.
    + eauto.
    + eauto.
  - split; [intros [w E]; discriminate|intros [b [E _]]; discriminate].
Qed.

(** If a message is refused, those before it are on the stream and nothing of it or behind it is. *)
Theorem C64_stream_stops ms : forall k, exists done todo, ms = done ++ todo /\
  (let '(ws, _, ok) := write_all k ms in
   (exists k', write_all k done = (ws, k', true)) /\ Forall (sendable (k_max k)) done /\
   (ok = true <-> todo = []) /\ match todo with m :: _ => ~ sendable (k_max k) m | [] => True end).
Proof using All.
  induction ms as [|m ms IH]; intros k.
  - exists [], []. simpl. split; [auto|]. split; [eauto|]. split; [constructor|]. split; [tauto|auto].
  - cbn [CodecModel.write_all]. pose proof (C64_encode_exact m (k_buf k) (k_comp k) (k_max k)) as X.
    unfold CodecModel.codec_write at 1. destruct (encode m (k_buf k) (k_comp k) (k_max k)) as [[o eb] cb] eqn:Ee. cbn [fst] in X.
    destruct o as [w|].
    + destruct (IH {| k_buf := eb; k_comp := cb; k_max := k_max k |}) as [dn [td [-> P]]].
      destruct (write_all {| k_buf := eb; k_comp := cb; k_max := k_max k |} (dn ++ td)) as [[ws k2] ok].
      destruct P as [[k' Pw] [Ps [Po Pt]]]. exists (m :: dn), td. split; [auto|]. split; [|split; [|split; auto]].
      * exists k'. cbn [CodecModel.write_all]. unfold CodecModel.codec_write at 1. rewrite Ee, Pw. auto.
      * constructor; [apply X; eauto|exact Ps].
    + exists [], (m :: ms). split; [auto|]. split; [exists k; reflexivity|]. split; [constructor|]. split; [split; discriminate|].
      intros S. apply X in S. destruct S; discriminate.
Qed.

Lemma encode_bytes m eb cb max w : limit_ok max -> fst (fst (encode m eb cb max)) = Some w ->
  exists b, enc m = Some b /\ lenN b <= max /\ limit_ok (lenN b) /\ lenN b < 2 ^ 32 /\ lenN (deflate blk_c crc b) <= body_limit (lenN b) /\
    lenN (deflate blk_c crc b) < 2 ^ 32 /\ w = le 4 (lenN b) ++ le 4 (lenN (deflate blk_c crc b)) ++ deflate blk_c crc b.
Proof using All.
  intros HL. unfold encode_message. cbv zeta. destruct (enc m) as [b|]; [|discriminate]. cbn [app].
  destruct (N.ltb_spec max (lenN b)) as [L|L]; [discriminate|]. cbn [fst]. intros E. injection E as <-. exists b.
  assert (Lb : limit_ok (lenN b)).
  { unfold limit_ok in *. assert (lenN b / 6 <= max / 6) by (apply N.div_le_mono; lia). lia. }
  assert (L32 : lenN b < 2 ^ 32) by (unfold limit_ok in Lb; lia).
  pose proof (deflate_fits blk_c crc b Lb) as F. pose proof (body_limit_lt (lenN b)) as G.
  change U32 with (2 ^ 32). rewrite (N.mod_small (lenN b) (2 ^ 32)) by exact L32. rewrite (N.mod_small (lenN (deflate blk_c crc b)) (2 ^ 32)) by (eapply N.le_lt_trans; [exact F|exact G]). repeat split; auto. eapply N.le_lt_trans; [exact F|exact G].
Qed.
End W.

Section T.
Variable M : Type.
Variable enc : M -> option bytes.
Variable dec : bytes -> option M.
Variable blk_c : bytes -> bytes.
Variable blk_d : bytes -> option bytes.
Variable crc : bytes -> N.
Hypothesis crc32 : forall d, crc d < 2 ^ 32.
Hypothesis blk_inv : forall b, blk_d (blk_c b) = Some b.
Hypothesis enc_inv : forall m b, enc m = Some b -> dec b = Some m.
Notation decode := (decode_message M dec blk_d crc).
Notation encode := (encode_message M enc blk_c crc).
Notation OnWire := (OnWire M dec blk_d crc).
Notation sendable := (sendable M enc).
Notation write_all := (write_all M enc blk_c crc).
Notation read_n := (read_n M dec blk_d crc).

(** What a writer sends is a message on the wire for every reader whose limit is no smaller than its length. *)
Theorem C64_writes_messages m eb cb max max' w b : limit_ok max -> fst (fst (encode m eb cb max)) = Some w ->
  enc m = Some b -> lenN b <= max' -> OnWire max' w m.
Proof using All.
  intros HL E Eb Hm. destruct (encode_bytes _ _ _ _ _ _ _ _ _ HL E) as [b' [Eb' [L1 [L2 [L3 [L4 [L5 ->]]]]]]].
  rewrite Eb in Eb'. injection Eb' as <-. exists (lenN b), (deflate blk_c crc b), b. repeat split; auto.
  apply deflate_ok; auto.
Qed.

Lemma decode_written m eb cb max max' w b r db cb' rest : limit_ok max -> fst (fst (encode m eb cb max)) = Some w ->
  enc m = Some b -> lenN b <= max' -> honest_io r -> arrived r = w ++ rest ->
  d_out (decode r db cb' max') = Msg m /\ arrived (d_io (decode r db cb' max')) = rest /\
  honest_io (d_io (decode r db cb' max')) /\ fin (d_io (decode r db cb' max')) = fin r.
Proof using All.
  intros HL E Eb Hm H Ha. destruct (encode_bytes _ _ _ _ _ _ _ _ _ HL E) as [b' [Eb' [L1 [L2 [L3 [L4 [L5 ->]]]]]]].
  rewrite Eb in Eb'. injection Eb' as <-.
  destruct (decode_pure M dec blk_d crc r db cb' max' H) as [D Q]. rewrite Ha, <- !app_assoc in D.
  rewrite dpure_step in D; auto. rewrite to_nat_lenN in D.
  destruct (Nat.leb_spec (length (deflate blk_c crc b)) (length (deflate blk_c crc b ++ rest))) as [_|L]; [|rewrite app_length in L; lia].
  cbv zeta in D. rewrite <- to_nat_lenN, firstn_lenN, skipn_lenN in D. rewrite inflate_deflate in D; auto.
  simpl in D. rewrite N.eqb_refl in D. simpl in D. rewrite (enc_inv _ _ Eb) in D. injection D as D1 _ _ D2.
  split; [auto|]. split; [auto|]. apply (Q m). auto.
Qed.

(** A message sent is the message received, whatever the segments, the bytes behind it and the state of the buffers, and the
    stream is left at the byte behind it. *)
Theorem C64_roundtrip m eb cb max w r db cb' rest : limit_ok max -> fst (fst (encode m eb cb max)) = Some w ->
  honest_io r -> arrived r = w ++ rest ->
  d_out (decode r db cb' max) = Msg m /\ arrived (d_io (decode r db cb' max)) = rest /\ fin (d_io (decode r db cb' max)) = fin r.
Proof using All.
  intros HL E H Ha. destruct (encode_bytes _ _ _ _ _ _ _ _ _ HL E) as [b [Eb [L1 _]]].
  destruct (decode_written m eb cb max max w b r db cb' rest) as [A [B [C D]]]; auto.
Qed.

(** Part of a message is never a message: the reader reports the end or the failure of the stream, or waits. *)
Theorem C64_cut_short m eb cb max w max' r db cb' miss : limit_ok max -> fst (fst (encode m eb cb max)) = Some w ->
  honest_io r -> w = arrived r ++ miss -> miss <> [] -> sendable max' m ->
  d_out (decode r db cb' max') = match fin r with Closed => Err EEof | Failed => Err EIo | Silent => Wait end.
Proof using All.
  intros HL E H Hw Hmiss [b0 [Eb0 Hm]]. destruct (encode_bytes _ _ _ _ _ _ _ _ _ HL E) as [b [Eb [L1 [L2 [L3 [L4 [L5 Ew]]]]]]].
  rewrite Eb in Eb0. injection Eb0 as <-.
  destruct (decode_pure M dec blk_d crc r db cb' max' H) as [D _]. set (a := arrived r) in *.
  assert (G : short M (end_err (fin r)) = match fin r with Closed => Err EEof | Failed => Err EIo | Silent => Wait end) by (destruct (fin r); reflexivity).
  rewrite <- G. clear G. set (z := deflate blk_c crc b) in *.
  assert (Lm : (1 <= length miss)%nat) by (destruct miss; [congruence|simpl; lia]).
  assert (Lw : (length a + length miss = 8 + length z)%nat).
  { rewrite <- app_length, <- Hw, Ew, !app_length, !le_length. lia. }
  unfold dpure in D. destruct (Nat.leb_spec 4 (length a)) as [L|L]; [|injection D as <- _ _ _; auto].
  assert (F1 : firstn 4 a = le 4 (lenN b)).
  { transitivity (firstn 4 (a ++ miss)); [rewrite firstn_app; replace (4 - length a)%nat with 0%nat by lia; simpl; rewrite app_nil_r; auto|].
    rewrite <- Hw, Ew. reflexivity. }
  assert (S1 : skipn 4 a ++ miss = le 4 (lenN z) ++ z).
  { transitivity (skipn 4 (a ++ miss)); [rewrite skipn_app; replace (4 - length a)%nat with 0%nat by lia; reflexivity|].
    rewrite <- Hw, Ew. reflexivity. }
  cbv zeta in D. rewrite F1 in D. destruct (cut4 (lenN b) [] L3) as [_ [_ [_ O1]]]. rewrite O1 in D.
  destruct (N.ltb_spec max' (lenN b)); [lia|]. set (a1 := skipn 4 a) in *.
  assert (Lw1 : (length a1 + length miss = 4 + length z)%nat).
  { rewrite <- app_length, S1, app_length, le_length. auto. }
  destruct (Nat.leb_spec 4 (length a1)) as [L'|L']; [|injection D as <- _ _ _; auto].
  assert (F2 : firstn 4 a1 = le 4 (lenN z)).
  { transitivity (firstn 4 (a1 ++ miss)); [rewrite firstn_app; replace (4 - length a1)%nat with 0%nat by lia; simpl; rewrite app_nil_r; auto|].
    rewrite S1. reflexivity. }
  rewrite F2 in D. destruct (cut4 (lenN z) [] L5) as [_ [_ [_ O2]]]. rewrite O2 in D. rewrite max_compress_len_limit in D.
  destruct (N.ltb_spec (body_limit (lenN b)) (lenN z)); [lia|]. rewrite to_nat_lenN in D.
  destruct (Nat.leb_spec (length z) (length (skipn 4 a1))) as [L2'|L2']; [rewrite skipn_length in L2'; lia|].
  injection D as <- _ _ _; auto.
Qed.

(** A writer and a reader with their own buffers, used for message after message: what is read is what was written, in order,
    and then the rest of the stream. *)
Theorem C64_stream ms : forall k ws k' r kr rest, limit_ok (k_max k) -> write_all k ms = (ws, k', true) -> honest_io r ->
  arrived r = ws ++ rest -> k_max k <= k_max kr ->
  exists kr' r', read_n (length ms) kr r = (ms, Wait, kr', r') /\ arrived r' = rest /\ fin r' = fin r /\ honest_io r' /\ k_max kr' = k_max kr.
Proof using All.
  induction ms as [|m ms IH]; intros k ws k' r kr rest HL E H Ha Hm.
  - simpl in E. injection E as <- <-. simpl. eexists _, _. split; [reflexivity|]. auto.
  - cbn [CodecModel.write_all] in E. unfold CodecModel.codec_write in E.
    destruct (encode m (k_buf k) (k_comp k) (k_max k)) as [[o eb] cb] eqn:Ee. destruct o as [w|]; [|discriminate].
    set (k1 := {| k_buf := eb; k_comp := cb; k_max := k_max k |}) in *.
    destruct (write_all k1 ms) as [[ws1 k2] ok] eqn:Ew. injection E as <- <- ->.
    assert (Ef : fst (fst (encode m (k_buf k) (k_comp k) (k_max k))) = Some w) by (rewrite Ee; auto).
    destruct (encode_bytes _ _ _ _ _ _ _ _ _ HL Ef) as [b [Eb [L1 _]]].
    rewrite <- app_assoc in Ha.
    destruct (decode_written m _ _ _ (k_max kr) w b r (k_buf kr) (k_comp kr) (ws1 ++ rest) HL Ef Eb ltac:(lia) H Ha) as [D1 [D2 [D3 D4]]].
    cbn [length CodecModel.read_n]. unfold CodecModel.codec_read. cbv zeta. rewrite D1.
    set (d := decode r (k_buf kr) (k_comp kr) (k_max kr)) in *.
    destruct (IH k1 ws1 k2 (d_io d) {| k_buf := d_dec d; k_comp := d_comp d; k_max := k_max kr |} rest) as [kr' [r' [R1 [R2 [R3 [R4 R5]]]]]]; auto.
    rewrite R1. eexists _, _. split; [reflexivity|]. rewrite R3, D4. auto.
Qed.
End T.
