(* Proofs about the record log. *)
From Verif Require Import Util FileModel FileSpec FileProofs PackModel PackSpec.

(* ---------- integers ---------- *)
Lemma le_length k n : length (le k n) = k.
Proof. revert n; induction k; simpl; auto. Qed.
Lemma unle_le k n : unle (le k n) = (n mod 256 ^ N.of_nat k)%N.
Proof.
  revert n; induction k as [|k IH]; intros n; [simpl; now rewrite N.mod_1_r|].
  cbn [le unle]. rewrite IH. rewrite Nat2N.inj_succ, N.pow_succ_r'.
  rewrite N.mod_mul_r by (try apply N.pow_nonzero; lia). lia.
Qed.
Lemma unle_le_id k n : (n < 256 ^ N.of_nat k)%N -> unle (le k n) = n.
Proof. intros. rewrite unle_le. apply N.mod_small; auto. Qed.

Lemma slice_cat_l a b n : n = length a -> slice (a ++ b) 0 n = a.
Proof. intros ->. rewrite slice_app_l by lia. apply slice_all. Qed.
Lemma slice_cat_r a b n k : length a = k -> slice (a ++ b) (k + n) = slice b n.
Proof. intros <-. unfold slice. rewrite skipn_app, skipn_all2 by lia. simpl. now replace (length a + n - length a) with n by lia. Qed.
Lemma slice_cat_r0 a b n k : length a = k -> slice (a ++ b) k n = slice b 0 n.
Proof. intros H. rewrite <- (Nat.add_0_r k). now rewrite (slice_cat_r a b 0 k H). Qed.
Lemma firstn_cat {A} (a b : list A) n : length a = n -> firstn n (a ++ b) = a.
Proof. intros <-. now rewrite firstn_app, firstn_all, Nat.sub_diag, firstn_O, app_nil_r. Qed.
Lemma skipn_cat {A} (a b : list A) n : length a = n -> skipn n (a ++ b) = b.
Proof. intros <-. now rewrite skipn_app, skipn_all, Nat.sub_diag. Qed.

Section P.
Context {V : Type}.
Variable C : codec V.
Hypothesis HC : codec_ok C.

(* ---------- header ---------- *)
Lemma header_body_length h : length (header_body h) = 24.
Proof. unfold header_body. rewrite !app_length, !le_length. reflexivity. Qed.
Lemma header_bytes_length h : length (header_bytes C h) = 28.
Proof. unfold header_bytes. rewrite app_length, header_body_length, le_length. reflexivity. Qed.

Lemma load_header_ok uidx version comp : (version < 2 ^ 16)%N ->
  let h := mk_hdr version (guid C uidx) 1 comp in
  load_header C uidx (header_bytes C h) = POk h.
Proof.
  intros Hv h. unfold load_header.
  assert (E1 : slice (header_bytes C h) 0 24 = header_body h)
    by (apply slice_cat_l; now rewrite header_body_length).
  assert (E2 : slice (header_bytes C h) 24 4 = le 4 (crc C (header_body h))).
  { unfold header_bytes. replace 24 with (24 + 0) by reflexivity. rewrite slice_cat_r by apply header_body_length.
    rewrite <- (le_length 4 (crc C (header_body h))) at 2. apply slice_all. }
  assert (Hsub : forall o n, o + n <= 24 -> slice (header_bytes C h) o n = slice (header_body h) o n).
  { intros. unfold header_bytes. apply slice_app_l. rewrite header_body_length. lia. }
  assert (E3 : slice (header_bytes C h) 0 6 = telnet) by (rewrite Hsub by lia; reflexivity).
  assert (E4 : slice (header_bytes C h) 6 2 = le 2 version) by (rewrite Hsub by lia; reflexivity).
  assert (E5 : slice (header_bytes C h) 8 8 = le 8 (guid C uidx)) by (rewrite Hsub by lia; reflexivity).
  assert (E6 : slice (header_bytes C h) 16 4 = le 4 1) by (rewrite Hsub by lia; reflexivity).
  assert (E7 : slice (header_bytes C h) 20 4 = le 4 (if comp then 1 else 0)) by (rewrite Hsub by lia; reflexivity).
  rewrite E1, E2, E3, E4, E5, E6, E7. clear E1 E2 E3 E4 E5 E6 E7 Hsub.
  rewrite (unle_le_id 4) by (apply (co_crc C HC)). rewrite N.eqb_refl. cbn [negb].
  destruct (list_eq_dec N.eq_dec telnet telnet); [|congruence]. cbn [negb].
  rewrite (unle_le_id 8) by (apply (co_uid C HC)). rewrite N.eqb_refl. cbn [negb].
  rewrite (unle_le_id 2) by auto.
  destruct comp; reflexivity.
Qed.

(* ---------- frames ---------- *)
Definition frame (b : bytes) : bytes :=
  le 4 (N.of_nat (length b)) ++ b ++ le 4 (crc C (le 4 (N.of_nat (length b)) ++ b)).
Lemma frame_length b : length (frame b) = length b + 8.
Proof. unfold frame. rewrite !app_length, !le_length. lia. Qed.

Definition small (b : bytes) : Prop := (N.of_nat (length b) <= MAX_RECORD_SIZE)%N.
Lemma small_u32 b : small b -> (N.of_nat (length b) < 256 ^ N.of_nat 4)%N.
Proof. unfold small, MAX_RECORD_SIZE. intros. change (256 ^ N.of_nat 4)%N with 4294967296%N. lia. Qed.

Definition rec_ok (comp : bool) (v : V) (fr : bytes) : Prop :=
  exists b, payload C comp v = Some b /\ small b /\ unpayload C comp b = POk v /\ fr = frame b.

Lemma fits_rec comp v : fits C comp v -> exists fr, rec_ok comp v fr.
Proof.
  intros (b & He & Hb & Hp). exists (frame (if comp then zip C b else b)).
  exists (if comp then zip C b else b). unfold payload. rewrite He. split; auto. split; auto. split; auto.
  unfold unpayload. destruct comp.
  - rewrite (co_zip C HC). destruct (N.ltb_spec MAX_RECORD_SIZE (N.of_nat (length b))); [lia|].
    now rewrite (co_dec C HC _ _ He).
  - now rewrite (co_dec C HC _ _ He).
Qed.
Lemma rec_ok_len comp v fr : rec_ok comp v fr -> 8 <= length fr.
Proof. intros (b & _ & _ & _ & ->). rewrite frame_length. lia. Qed.

(* ---------- iteration ---------- *)
Lemma iter_next_frame comp v fr rest : rec_ok comp v fr -> iter_next C comp (fr ++ rest) = IVal v rest.
Proof.
  intros (b & _ & Hs & Hu & ->). unfold iter_next.
  set (sz := le 4 (N.of_nat (length b))). unfold frame. fold sz.
  assert (Lsz : length sz = 4) by apply le_length.
  set (s := (sz ++ b ++ le 4 (crc C (sz ++ b))) ++ rest).
  destruct (Nat.ltb_spec (length s) 4); [unfold s in *; rewrite !app_length, le_length in *; lia|].
  assert (E1 : firstn 4 s = sz).
  { unfold s. rewrite <- app_assoc. rewrite <- Lsz. rewrite firstn_app, firstn_all, Nat.sub_diag, firstn_O, app_nil_r. reflexivity. }
  assert (E2 : skipn 4 s = b ++ le 4 (crc C (sz ++ b)) ++ rest).
  { unfold s. rewrite <- !app_assoc. rewrite <- Lsz. rewrite skipn_app, skipn_all, Nat.sub_diag. reflexivity. }
  rewrite E1, E2. assert (Eu : unle sz = N.of_nat (length b)) by (unfold sz; apply (unle_le_id 4); now apply small_u32).
  rewrite !Eu.
  destruct (N.ltb_spec MAX_RECORD_SIZE (N.of_nat (length b))) as [Hlt|Hge]; [unfold small in Hs; lia|].
  rewrite !Nat2N.id.
  destruct (Nat.ltb_spec (length (b ++ le 4 (crc C (sz ++ b)) ++ rest)) (length b)) as [Hl|_]; [rewrite app_length in Hl; lia|].
  rewrite !(firstn_cat b), !(skipn_cat b) by reflexivity.
  set (cs := le 4 (crc C (sz ++ b))). assert (Lc : length cs = 4) by apply le_length.
  destruct (Nat.ltb_spec (length (cs ++ rest)) 4) as [Hl|_]; [rewrite app_length in Hl; lia|].
  rewrite !(firstn_cat cs), !(skipn_cat cs) by exact Lc.
  unfold cs. rewrite (unle_le_id 4) by apply (co_crc C HC). fold sz. rewrite N.eqb_refl. cbn [negb]. now rewrite Hu.
Qed.

(* a strict prefix of a record *)
Lemma iter_next_torn comp v fr n : rec_ok comp v fr -> n < length fr ->
  iter_next C comp (firstn n fr) = if n <? 4 then INone else IErr (EIo Eof).
Proof.
  intros (b & _ & Hs & _ & ->) Hn. rewrite frame_length in Hn. unfold iter_next.
  rewrite firstn_length, frame_length. replace (Nat.min n (length b + 8)) with n by lia.
  destruct (Nat.ltb_spec n 4) as [|H4]; auto.
  set (sz := le 4 (N.of_nat (length b))). assert (Lsz : length sz = 4) by apply le_length.
  unfold frame. fold sz.
  set (t := b ++ le 4 (crc C (sz ++ b))). assert (Lt : length t = length b + 4) by (unfold t; rewrite app_length, le_length; lia).
  replace (firstn n (sz ++ t)) with (sz ++ firstn (n - 4) t) by (rewrite firstn_app, Lsz, (firstn_all2 sz) by lia; reflexivity).
  rewrite !(firstn_cat sz), !(skipn_cat sz) by exact Lsz.
  assert (Eu : unle sz = N.of_nat (length b)) by (unfold sz; apply (unle_le_id 4); now apply small_u32).
  rewrite !Eu.
  destruct (N.ltb_spec MAX_RECORD_SIZE (N.of_nat (length b))) as [Hlt|Hge]; [unfold small in Hs; lia|].
  rewrite !Nat2N.id. rewrite firstn_length, Lt.
  destruct (Nat.ltb_spec (Nat.min (n - 4) (length b + 4)) (length b)); auto.
  rewrite skipn_length, firstn_length, Lt.
  destruct (Nat.ltb_spec (Nat.min (n - 4) (length b + 4) - length b) 4); auto. lia.
Qed.

(* a list of records laid out one after the other *)
Inductive laid (comp : bool) : list V -> bytes -> Prop :=
  | laid_nil : laid comp [] []
  | laid_cons v fr vs s : rec_ok comp v fr -> laid comp vs s -> laid comp (v :: vs) (fr ++ s).

Lemma iter_all_laid comp vs s t fuel : laid comp vs s -> length vs <= fuel ->
  iter_all C fuel comp (s ++ t) =
  (vs ++ fst (iter_all C (fuel - length vs) comp t), snd (iter_all C (fuel - length vs) comp t)).
Proof.
  intros H. revert fuel. induction H as [|v fr vs s Hv Hl IH]; intros fuel Hf; simpl.
  - rewrite Nat.sub_0_r. apply surjective_pairing.
  - destruct fuel as [|fuel]; [simpl in Hf; lia|]. cbn [iter_all].
    rewrite <- app_assoc, (iter_next_frame _ _ _ _ Hv). rewrite IH by (simpl in Hf; lia). reflexivity.
Qed.
Lemma laid_length comp vs s : laid comp vs s -> 8 * length vs <= length s.
Proof. induction 1; simpl; auto. rewrite app_length. apply rec_ok_len in H. lia. Qed.
Lemma laid_app comp vs s ws t : laid comp vs s -> laid comp ws t -> laid comp (vs ++ ws) (s ++ t).
Proof. induction 1; simpl; auto. rewrite <- app_assoc. constructor; auto. Qed.

Section Rd.
Variable rsz : nat.
Hypothesis Hr : 0 < rsz.
(* ---------- reading one record through the buffered file ---------- *)
Lemma rd_ok n f : wf_df f -> f_pos f + n <= df_len f ->
  exists f', rd rsz n f = (POk (slice (p_bytes (abs f)) (f_pos f) n), f') /\ wf_df f' /\
    abs f' = at_pos (abs f) (f_pos f + n) /\ f_os f' = f_os f /\ f_safe f' = f_safe f.
Proof.
  intros H Hn. unfold rd.
  destruct (read_exact_ok rsz n f Hr H) as (r & f' & -> & H' & Ho & Hs & [(A & -> & B)|(A & _)]); [|lia].
  eauto 10.
Qed.
Lemma rd_any n f : wf_df f -> exists r f', rd rsz n f = (r, f') /\ wf_df f' /\
    (exists p, abs f' = at_pos (abs f) p) /\ f_os f' = f_os f /\ f_safe f' = f_safe f.
Proof.
  intros H. unfold rd.
  destruct (read_exact_ok rsz n f Hr H) as (r & f' & -> & H' & Ho & Hs & Hc).
  destruct r; eexists _, _; split; try reflexivity; split; auto; split; auto; destruct Hc as [(A & B & D)|(A & B & D)]; eauto.
Qed.

Lemma seek_start n f : snd (df_seek (SStart n) f) = set_pos f n.
Proof. reflexivity. Qed.
Lemma wf_set_pos f n : wf_df f -> wf_df (set_pos f n).
Proof. intros H; destruct H; constructor; simpl; auto. Qed.
Lemma abs_set_pos f n : abs (set_pos f n) = at_pos (abs f) n.
Proof. reflexivity. Qed.
Lemma at_pos_twice p a b : at_pos (at_pos p a) b = at_pos p b.
Proof. reflexivity. Qed.

Lemma read_checked_any pos f : wf_df f -> exists r f', read_checked C rsz pos f = (r, f') /\ wf_df f' /\
    (exists p, abs f' = at_pos (abs f) p) /\ f_os f' = f_os f /\ f_safe f' = f_safe f.
Proof.
  intros H. unfold read_checked. rewrite seek_start.
  destruct (rd_any 4 (set_pos f pos) (wf_set_pos _ _ H)) as (r1 & f1 & -> & W1 & (p1 & A1) & O1 & S1).
  rewrite abs_set_pos, at_pos_twice in A1. cbn [f_os f_safe set_pos] in *.
  destruct r1 as [sb|e]; [|eexists _, _; split; [reflexivity|]; eauto 10].
  destruct (MAX_RECORD_SIZE <? unle sb)%N; [eexists _, _; split; [reflexivity|]; eauto 10|].
  destruct (rd_any (N.to_nat (unle sb)) f1 W1) as (r2 & f2 & -> & W2 & (p2 & A2) & O2 & S2).
  rewrite A1, at_pos_twice in A2.
  destruct r2 as [b|e]; [|eexists _, _; split; [reflexivity|]; repeat split; eauto; congruence || apply W2].
  destruct (rd_any 4 f2 W2) as (r3 & f3 & -> & W3 & (p3 & A3) & O3 & S3).
  rewrite A2, at_pos_twice in A3.
  destruct r3 as [cb|e]; [destruct (negb _)|]; eexists _, _; split; try reflexivity;
    (split; [auto|split; [eauto|split; congruence]]).
Qed.

Lemma slice_in l p fr o n : slice l p (length fr) = fr -> o + n <= length fr -> slice l (p + o) n = slice fr o n.
Proof. intros <- H. rewrite slice_length in H. rewrite slice_slice by lia. reflexivity. Qed.

Lemma read_checked_frame pos b f : wf_df f -> small b -> slice (p_bytes (abs f)) pos (length b + 8) = frame b ->
  exists f', read_checked C rsz pos f = (POk b, f').
Proof.
  intros H Hs Hf.
  assert (Hlen : pos + (length b + 8) <= df_len f).
  { rewrite <- abs_len by auto.
    assert (E : length (slice (p_bytes (abs f)) pos (length b + 8)) = length b + 8) by (rewrite Hf; apply frame_length).
    rewrite slice_length in E. lia. }
  set (c := p_bytes (abs f)) in *.
  rewrite <- (frame_length b) in Hf.
  set (sz := le 4 (N.of_nat (length b))).
  assert (P1 : slice c pos 4 = sz).
  { replace pos with (pos + 0) by lia. rewrite (slice_in _ _ _ _ _ Hf) by (rewrite frame_length; lia).
    apply slice_cat_l. unfold sz. now rewrite le_length. }
  assert (P2 : slice c (pos + 4) (length b) = b).
  { rewrite (slice_in _ _ _ _ _ Hf) by (rewrite frame_length; lia). unfold frame.
    rewrite slice_cat_r0 by apply le_length. now apply slice_cat_l. }
  assert (P3 : slice c (pos + 4 + length b) 4 = le 4 (crc C (sz ++ b))).
  { replace (pos + 4 + length b) with (pos + (4 + length b)) by lia.
    rewrite (slice_in _ _ _ _ _ Hf) by (rewrite frame_length; lia). unfold frame. fold sz.
    rewrite slice_cat_r by apply le_length. rewrite slice_cat_r0 by reflexivity. rewrite <- (le_length 4 (crc C (sz ++ b))) at 2. apply slice_all. }
  clear Hf. unfold read_checked. rewrite seek_start.
  destruct (rd_ok 4 (set_pos f pos) (wf_set_pos _ _ H)) as (f1 & -> & W1 & A1 & _).
  { cbn [f_pos set_pos]. change (df_len (set_pos f pos)) with (df_len f). lia. }
  rewrite abs_set_pos in *. cbn [p_bytes at_pos f_pos set_pos] in *. fold c. rewrite P1.
  unfold sz at 1 2. rewrite (unle_le_id 4) by now apply small_u32.
  destruct (N.ltb_spec MAX_RECORD_SIZE (N.of_nat (length b))) as [Hlt|Hge]; [unfold small in Hs; lia|].
  rewrite Nat2N.id.
  assert (Hp1 : f_pos f1 = pos + 4) by (change (p_pos (abs f1) = pos + 4); rewrite A1; reflexivity).
  assert (Hl1 : df_len f1 = df_len f) by (rewrite <- !abs_len by auto; rewrite A1; reflexivity).
  destruct (rd_ok (length b) f1 W1) as (f2 & -> & W2 & A2 & _); [lia|].
  rewrite A1, Hp1 in *. cbn [p_bytes at_pos] in *. fold c. rewrite P2.
  assert (Hp2 : f_pos f2 = pos + 4 + length b) by (change (p_pos (abs f2) = pos + 4 + length b); rewrite A2; reflexivity).
  assert (Hl2 : df_len f2 = df_len f) by (rewrite <- !abs_len by auto; rewrite A2; reflexivity).
  destruct (rd_ok 4 f2 W2) as (f3 & -> & _); [lia|].
  rewrite A2, Hp2. cbn [p_bytes at_pos]. fold c. rewrite P3.
  rewrite (unle_le_id 4) by apply (co_crc C HC). rewrite N.eqb_refl. cbn [negb]. eauto.
Qed.

End Rd.

Section Wr.
Variable wsz : nat.
Hypothesis Hw : 0 < wsz.
(* ---------- writing one record ---------- *)
Lemma write_value_ok comp v fr f : wf_df f -> f_ro f = false -> rec_ok comp v fr ->
  exists f', write_value C wsz comp v f = (POk tt, f') /\ wf_df f' /\ f_ro f' = false /\
    abs f' = with_bytes (abs f) (p_bytes (abs f) ++ fr) /\ f_safe f' = f_safe f /\
    firstn (length (f_os f)) (f_os f') = f_os f.
Proof.
  intros H Hro (b & Hp & Hs & _ & ->). unfold write_value. rewrite Hp.
  rewrite N.mod_small by (apply small_u32 in Hs; exact Hs).
  set (sz := le 4 (N.of_nat (length b))).
  destruct (write_all_ok wsz sz f Hw H Hro) as (f1 & -> & W1 & R1 & A1 & S1 & O1).
  destruct (write_all_ok wsz b f1 Hw W1 R1) as (f2 & -> & W2 & R2 & A2 & S2 & O2).
  destruct (write_all_ok wsz (le 4 (crc C (sz ++ b))) f2 Hw W2 R2) as (f3 & -> & W3 & R3 & A3 & S3 & O3).
  exists f3. split; [auto|]. split; [auto|]. split; [auto|]. split; [|split; [congruence|]].
  - rewrite A3, A2, A1. unfold with_bytes; cbn [p_bytes p_more p_pos p_ro]. unfold frame. fold sz.
    now rewrite <- !app_assoc.
  - eapply firstn_pre; [|exact O3]. eapply firstn_pre; eauto.
Qed.

End Wr.
End P.
