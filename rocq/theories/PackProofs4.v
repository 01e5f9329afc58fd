(* Whatever the file contains, only checked records come out. *)
From Verif Require Import Util FileModel FileSpec FileProofs PackModel PackSpec PackProofs PackProofs2.

Section Sound.
Context {V : Type}.
Variable C : codec V.
Variable rsz wsz : nat.
Hypothesis Hr : 0 < rsz.

Lemma rd_sound n f b f' : wf_df f -> rd rsz n f = (POk b, f') ->
  wf_df f' /\ b = slice (p_bytes (abs f)) (f_pos f) n /\ length b = n /\ abs f' = at_pos (abs f) (f_pos f + n) /\
  (n = 0 \/ f_pos f + n <= df_len f).
Proof.
  intros W E. unfold rd in E. destruct (read_exact_ok rsz n f Hr W) as (r & f1 & E1 & W1 & _ & _ & H).
  rewrite E1 in E. destruct r as [x|x]; [|discriminate]. injection E as <- <-.
  destruct H as [(A & B & D)|(_ & B & _)]; [|discriminate]. injection B as ->.
  split; auto. split; auto. split; [|auto]. destruct A as [->|A]; [reflexivity|].
  rewrite slice_full; auto. pose proof (abs_len f W) as Ha. cbn [abs p_bytes] in Ha. lia.
Qed.

Lemma abs_pos f : p_pos (abs f) = f_pos f.
Proof. reflexivity. Qed.

Lemma read_checked_sound pos f b f' : wf_df f -> read_checked C rsz pos f = (POk b, f') ->
  exists lenb sum, slice (p_bytes (abs f)) pos (8 + length b) = lenb ++ b ++ sum /\ pos + 8 + length b <= df_len f /\
    length lenb = 4 /\ length sum = 4 /\ unle lenb = N.of_nat (length b) /\ unle sum = crc C (lenb ++ b).
Proof.
  intros W E. unfold read_checked in E. rewrite seek_start in E.
  destruct (rd rsz 4 (set_pos f pos)) as [[sb|e] f1] eqn:E1; [|discriminate].
  destruct (rd_sound _ _ _ _ (wf_set_pos _ _ W) E1) as (W1 & -> & L1 & A1 & B1). clear E1.
  rewrite abs_set_pos in *. cbn [p_bytes at_pos f_pos set_pos] in *.
  set (sb := slice (p_bytes (abs f)) pos 4) in *.
  destruct (MAX_RECORD_SIZE <? unle sb)%N; [discriminate|].
  destruct (rd rsz (N.to_nat (unle sb)) f1) as [[b'|e] f2] eqn:E2; [|discriminate].
  destruct (rd_sound _ _ _ _ W1 E2) as (W2 & Hb & L2 & A2 & B2). clear E2.
  destruct (rd rsz 4 f2) as [[cb|e] f3] eqn:E3; [|discriminate].
  destruct (rd_sound _ _ _ _ W2 E3) as (W3 & Hcb & L3 & A3 & B3). clear E3.
  destruct (N.eqb_spec (crc C (sb ++ b')) (unle cb)) as [Ec|]; [|discriminate]. injection E as <- <-.
  assert (P1 : f_pos f1 = pos + 4) by (rewrite <- abs_pos, A1; reflexivity).
  assert (P2 : f_pos f2 = pos + 4 + length b') by (rewrite <- abs_pos, A2, P1, L2; reflexivity).
  rewrite A1 in Hb, A2. cbn [p_bytes at_pos] in Hb. rewrite P1 in Hb.
  rewrite A2 in Hcb. cbn [p_bytes at_pos] in Hcb. rewrite P2 in Hcb.
  assert (DL : df_len f2 = df_len f).
  { rewrite <- !abs_len by auto. rewrite A2. reflexivity. }
  rewrite P2, DL in B3.
  exists sb, cb. split.
  - transitivity (slice (p_bytes (abs f)) pos 4 ++ slice (p_bytes (abs f)) (pos + 4) (length b') ++ slice (p_bytes (abs f)) (pos + 4 + length b') 4).
    + rewrite slice_app_cat, slice_app_cat. f_equal. lia.
    + fold sb. rewrite <- Hcb. rewrite L2 at 1. now rewrite <- Hb.
  - split; [lia|]. split; auto. split; auto. split; [lia|auto].
Qed.

Lemma unpayload_sound comp b v : unpayload C comp b = POk v ->
  exists d, (if comp then unzip C b = Some d else d = b) /\ dec C d = Some v.
Proof.
  unfold unpayload. destruct comp.
  - destruct (unzip C b) as [d|]; [|discriminate]. destruct (MAX_RECORD_SIZE <? N.of_nat (length d))%N; [discriminate|].
    destruct (dec C d) eqn:E; [|discriminate]. intros H; injection H as <-. eauto.
  - destruct (dec C b) eqn:E; [|discriminate]. intros H; injection H as <-. eauto.
Qed.

Lemma iter_next_sound comp file a v rest : iter_next C comp (skipn a file) = IVal v rest ->
  exists q, sound_record C comp file a q v /\ rest = skipn q file.
Proof.
  unfold iter_next. intros E.
  set (s := skipn a file) in *.
  destruct (Nat.ltb_spec (length s) 4) as [|H1]; [discriminate|].
  set (sb := firstn 4 s) in *.
  destruct (MAX_RECORD_SIZE <? unle sb)%N; [discriminate|].
  set (n := N.to_nat (unle sb)) in *.
  destruct (Nat.ltb_spec (length (skipn 4 s)) n) as [|H2]; [discriminate|].
  destruct (Nat.ltb_spec (length (skipn n (skipn 4 s))) 4) as [|H3]; [discriminate|].
  set (b := firstn n (skipn 4 s)) in *. set (s2 := skipn n (skipn 4 s)) in *.
  destruct (N.eqb_spec (crc C (sb ++ b)) (unle (firstn 4 s2))) as [Ec|]; [|discriminate]. cbn [negb] in E.
  destruct (unpayload C comp b) as [v'|] eqn:Eu; [|discriminate]. injection E as <- <-.
  destruct (unpayload_sound _ _ _ Eu) as (d & D1 & D2).
  assert (Lb : length b = n) by (unfold b; rewrite firstn_length; lia).
  assert (Ls : length s = 4 + n + length s2).
  { unfold s2. rewrite !skipn_length in *. lia. }
  assert (Lf : a + length s = length file).
  { unfold s in *. rewrite skipn_length in *. lia. }
  assert (Es : s = sb ++ b ++ firstn 4 s2 ++ skipn 4 s2).
  { unfold sb, b, s2. now rewrite !firstn_skipn. }
  exists (a + 8 + n). split.
  - exists sb, b, (firstn 4 s2), d. rewrite Lb.
    split; [|repeat split; auto].
    + fold s. replace (a + 8 + n - a) with (4 + n + 4) by lia. rewrite Es at 1.
      rewrite (app_assoc b), app_assoc. apply firstn_cat. rewrite !app_length, Lb. unfold sb. rewrite !firstn_length. lia.
    + lia.
    + unfold sb. rewrite firstn_length. lia.
    + rewrite firstn_length. lia.
    + lia.
  - change (skipn 4 s2 = skipn (a + 8 + n) file). unfold s2, s. rewrite !skipn_skipn'. f_equal. lia.
Qed.

Lemma iter_all_sound comp file fuel : forall a vs e, iter_all C fuel comp (skipn a file) = (vs, e) -> sound_records C comp file a vs.
Proof.
  induction fuel as [|fuel IH]; intros a vs e E; cbn [iter_all] in E; [injection E as <- <-; exact I|].
  destruct (iter_next C comp (skipn a file)) as [|x|v rest] eqn:En; try (injection E as <- <-; exact I).
  destruct (iter_next_sound _ _ _ _ _ En) as (q & S & ->).
  destruct (iter_all C fuel comp (skipn q file)) as [ws x] eqn:Ea. injection E as <- <-.
  exists q. split; eauto.
Qed.

(* an opened pack over a nonempty file shows exactly that file *)
Lemma open_shows os safe uidx version comp ro k : safe <= length os -> os <> [] ->
  pack_open C rsz wsz os safe uidx version comp ro = POk k -> wf_df (k_df k) /\ p_bytes (abs (k_df k)) = os.
Proof.
  intros Hs Hne E. unfold pack_open in E.
  destruct (open_ok rsz os safe ro Hs) as (f & Ef & W & A & O & S). rewrite Ef in E.
  assert (Hend : f_end f = length os).
  { pose proof (more_end 1 1 (le_n 1) (le_n 1) 0%N eq_refl f W) as M. rewrite A, O in M. simpl in M. auto. }
  destruct (Nat.eqb_spec (f_end f) 0) as [Z|_]; [rewrite Hend in Z; destruct os; [congruence|discriminate]|].
  rewrite seek_start in E.
  destruct (rd rsz DATA_HEADER_BYTES (set_pos f 0)) as [[b|e] f1] eqn:E1; [|discriminate].
  destruct (rd_sound _ _ _ _ (wf_set_pos _ _ W) E1) as (W1 & _ & _ & A1 & _).
  destruct (load_header C uidx b) as [h|]; [|discriminate].
  destruct (version <? h_version h)%N; [discriminate|]. destruct (negb (h_app h =? 1)%N); [discriminate|].
  injection E as <-. cbn [k_df]. destruct (flush_ok f1 W1) as [W2 A2]. split; auto.
  rewrite A2, A1, abs_set_pos, A. reflexivity.
Qed.
End Sound.
