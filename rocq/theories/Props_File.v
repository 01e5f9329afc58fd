(* C23, C24: the buffered file and the record log. *)
From Verif Require Import Util FileModel FileSpec FileProofs PackModel PackSpec PackProofs PackProofs2 PackProofs3 PackProofs4.

(* ---------- C23 ---------- *)

(* Whatever the (nonzero) buffer sizes, every sequence of operations on a file opened over any contents answers like
   the plain byte array of FileSpec.v. *)
Theorem C23_behaves_like_byte_array : forall rsz wsz contents ro ops, 0 < rsz -> 0 < wsz ->
  exists f0, df_open rsz contents 0 ro = FOk f0 /\
  exists p, plain_run (mk_plain contents [] 0 ro) ops (fst (df_run rsz wsz ops f0)) p.
Proof.
  intros rsz wsz contents ro ops Hr Hw.
  destruct (open_ok rsz contents 0 ro (Nat.le_0_l _)) as (f0 & E & W & A & _). exists f0. split; auto.
  destruct (run_ok rsz wsz ops f0 Hr Hw W) as [_ P]. rewrite A in P. eauto.
Qed.

(* In particular no operation ever panics, gets stuck or hits an unexpected end of file inside the buffers. *)
Theorem C23_never_panics : forall rsz wsz contents ro ops f0, 0 < rsz -> 0 < wsz ->
  df_open rsz contents 0 ro = FOk f0 ->
  ~ In (RFail Panic) (fst (df_run rsz wsz ops f0)) /\ ~ In (RFail Stuck) (fst (df_run rsz wsz ops f0)) /\
  ~ In (RFail WriteZero) (fst (df_run rsz wsz ops f0)).
Proof.
  intros rsz wsz contents ro ops f0 Hr Hw E.
  destruct (C23_behaves_like_byte_array rsz wsz contents ro ops Hr Hw) as (f & E' & p & P).
  rewrite E in E'. injection E' as <-. clear E.
  assert (G : forall x, In x (fst (df_run rsz wsz ops f0)) -> x <> RFail Panic /\ x <> RFail Stuck /\ x <> RFail WriteZero).
  { revert P. generalize (fst (df_run rsz wsz ops f0)) as outs. intros outs P.
    induction P as [|? ? ? ? ? ? ? S P IH]; [intros x []|]. intros y [<-|Hy]; [|auto]. inversion S; subst; repeat split; discriminate. }
  repeat split; intros Hin; destruct (G _ Hin) as (A & B & D); congruence.
Qed.

Lemma plain_grows p o x p' : plain_step p o x p' ->
  match o with ORead _ | OReadExact _ | OWrite _ | OWriteAll _ | OFlush | OSync | OSeek _ | OLen => True | _ => False end ->
  exists u, p_bytes p' = p_bytes p ++ u.
Proof.
  intros S H. inversion S; subst; try destruct H; cbn [at_pos with_bytes p_bytes]; eauto;
    exists []; now rewrite app_nil_r.
Qed.

(* Bytes written are the bytes read back from the offset they were written at, whatever flushes, syncs, seeks, reads
   and further writes come between. *)
Theorem C23_written_bytes_read_back : forall rsz wsz contents bs mid f0, 0 < rsz -> 0 < wsz ->
  df_open rsz contents 0 false = FOk f0 ->
  (forall o, In o mid -> match o with ORead _ | OReadExact _ | OWrite _ | OWriteAll _ | OFlush | OSync | OSeek _ | OLen => True | _ => False end) ->
  let f1 := snd (df_run rsz wsz (OWriteAll bs :: mid) f0) in
  fst (df_run rsz wsz [OSeek (SStart (length contents)); OReadExact (length bs)] f1) = [RNum (length contents); RBytes bs].
Proof.
  intros rsz wsz contents bs mid f0 Hr Hw E Hmid f1.
  destruct (open_ok rsz contents 0 false (Nat.le_0_l _)) as (f & E' & W & A & _). rewrite E in E'. injection E' as <-.
  assert (G : forall ops g, wf_df g ->
     (forall o, In o ops -> match o with ORead _ | OReadExact _ | OWrite _ | OWriteAll _ | OFlush | OSync | OSeek _ | OLen => True | _ => False end) ->
     wf_df (snd (df_run rsz wsz ops g)) /\ exists t, p_bytes (abs (snd (df_run rsz wsz ops g))) = p_bytes (abs g) ++ t).
  { induction ops as [|o ops IH]; intros g Wg Ho; [split; auto; exists []; now rewrite app_nil_r|].
    cbn [df_run]. destruct (step_ok rsz wsz o g Hr Hw Wg) as [W1 P1].
    destruct (df_step rsz wsz o g) as [x g1]. cbn [fst snd] in *.
    destruct (IH g1 W1) as [W2 (t & T)]; [intros; apply Ho; simpl; auto|].
    destruct (df_run rsz wsz ops g1) as [xs g2]. cbn [fst snd] in *. split; auto. rewrite T.
    assert (Hx : exists u, p_bytes (abs g1) = p_bytes (abs g) ++ u).
    { eapply plain_grows; [exact P1|]. apply Ho. simpl; auto. }
    destruct Hx as (u & U). exists (u ++ t). now rewrite U, app_assoc. }
  assert (R0 : f_ro f0 = false) by (change (p_ro (abs f0) = false); rewrite A; reflexivity).
  assert (HB : wf_df f1 /\ exists t, p_bytes (abs f1) = contents ++ bs ++ t).
  { unfold f1. cbn [df_run df_step].
    destruct (write_all_ok wsz bs f0 Hw W R0) as (g & -> & Wg & _ & Ag & _).
    destruct (G mid g Wg Hmid) as [W1 (t & T)]. destruct (df_run rsz wsz mid g) as [xs g2]. cbn [snd] in *. split; auto.
    exists t. rewrite T, Ag, A. cbn [with_bytes p_bytes]. now rewrite app_assoc. }
  destruct HB as [W1 (t & T)]. cbn [df_run df_step df_seek out_num].
  destruct (read_exact_ok rsz (length bs) (set_pos f1 (length contents)) Hr (wf_set_pos _ _ W1)) as (r & f' & -> & _ & _ & _ & Hc).
  cbn [out_bytes fst].
  assert (Hl : df_len (set_pos f1 (length contents)) = length contents + length bs + length t).
  { change (df_len f1 = length contents + length bs + length t). rewrite <- abs_len by auto. rewrite T, !app_length. lia. }
  rewrite Hl in Hc. cbn [f_pos set_pos] in Hc.
  destruct Hc as [(_ & -> & _)|(H1 & _)]; [|lia].
  cbn [out_bytes]. repeat f_equal. rewrite abs_set_pos. cbn [at_pos p_bytes]. rewrite T.
  rewrite slice_app_r, Nat.sub_diag by lia. now apply slice_cat_l.
Qed.

(* a run over tiny buffers that crosses every boundary: write across two drains, seek back, read across the drained part
   and the buffer, cut, extend, reopen read-only *)
Example C23_example :
  match df_open 4 [9; 8; 7]%N 0 false with
  | FOk f => fst (df_run 4 3 [OWriteAll [1; 2; 3; 4; 5]%N; OSeek (SStart 1); OReadExact 6; ORead 9; ORead 9; OSetLen 4; OLen;
      OSeek (SEnd (-2)); OReadExact 3; OWrite [6]%N; OSetLen 7; OSeek (SStart 2); OReadExact 5; OReopen true; OWrite [1]%N; OReadExact 3; OSetLen 0] f)
  | FErr _ => []
  end
  = [RUnit; RNum 1; RBytes [8; 7; 1; 2; 3; 4]%N; RBytes [5]%N; RBytes []; RUnit; RNum 4;
     RNum 2; RFail Eof; RNum 1; RUnit; RNum 2; RBytes [7; 1; 6; 0; 0]%N; RUnit; RFail ReadOnly; RBytes [9; 8; 7]%N; RFail OsErr].
Proof. vm_compute. reflexivity. Qed.

(* ---------- C24 ---------- *)
Section C24.
Context {V : Type}.
Variable C : codec V.
Variable rsz wsz : nat.
Variable uidx version : N.
Variable comp : bool.
Notation step := (pack_step C rsz wsz uidx version).
Notation run := (pack_run C rsz wsz uidx version).
Notation fresh := (pack_open C rsz wsz [] 0 uidx version comp false).

(* Opening a pack on an empty file creates it, and every sequence of operations on it answers like the record log of
   PackSpec.v. *)
Theorem C24_behaves_like_record_log :
  0 < rsz -> 0 < wsz -> codec_ok C -> (version < 2 ^ 16)%N ->
  exists k0 head, fresh = POk k0 /\ length head = 28 /\
  forall ops, Forall (pop_ok C comp) ops ->
  exists L', log_run (fun v => enc C v <> None) (mk_log head [] 28 0 false false) ops (fst (run ops k0)) L'.
Proof.
  intros Hr Hw HC Hv. destruct (open_fresh C rsz wsz Hr Hw uidx version Hv comp) as (k0 & E & I).
  exists k0, (header_bytes C (H0 C uidx version comp)). split; auto. split; [apply header_bytes_length|].
  intros ops F. destruct (pack_run_ok C rsz wsz Hr Hw HC uidx version Hv comp ops k0 _ I F) as (L' & P & _). exists L'. exact P.
Qed.

Lemma fresh_run ops k0 : 0 < rsz -> 0 < wsz -> codec_ok C -> (version < 2 ^ 16)%N -> fresh = POk k0 ->
  Forall (pop_ok C comp) ops -> exists L, inv C uidx version comp (snd (run ops k0)) L.
Proof.
  intros Hr Hw HC Hv E F. destruct (open_fresh C rsz wsz Hr Hw uidx version Hv comp) as (k & E' & I).
  rewrite E in E'. injection E' as <-.
  destruct (pack_run_ok C rsz wsz Hr Hw HC uidx version Hv comp ops k0 _ I F) as (L & _ & I'). eauto.
Qed.

(* A value appended at p is what fetch at p returns, after any operations that do not cut the file below its end:
   further appends, reads, flushes, commits, reopening. *)
Theorem C24_fetch_returns_appended : forall k0 before v p after,
  0 < rsz -> 0 < wsz -> codec_ok C -> (version < 2 ^ 16)%N -> fresh = POk k0 ->
  Forall (pop_ok C comp) (before ++ [OAppend v] ++ after) ->
  let k1 := snd (run before k0) in
  fst (step (OAppend v) k1) = XPos p ->
  let k2 := snd (step (OAppend v) k1) in
  Forall (keeps (pack_len k2)) after ->
  fst (step (OFetch p) (snd (run after k2))) = XVal v.
Proof.
  intros k0 before v p after Hr Hw HC Hv E F k1 Ea k2 K.
  apply Forall_app in F. destruct F as [F1 F]. apply Forall_app in F. destruct F as [F2 F3].
  destruct (fresh_run before k0 Hr Hw HC Hv E F1) as (L & I). inversion F2 as [|? ? Hok _]; subst.
  destruct (append_rec C rsz wsz Hr Hw HC uidx version Hv comp k1 L v p I Hok Ea) as (L2 & I2 & Hin).
  destruct (keep_run C rsz wsz Hr Hw HC uidx version Hv comp after k2 L2 (p, pack_len k2, v) I2 F3 K Hin) as (L3 & I3 & Hin3).
  eapply fetch_rec; eauto.
Qed.

(* Once commit has answered Ok, a record also survives crashes: whatever part of the later, unsynced bytes is lost, and
   however many times. *)
Theorem C24_committed_record_survives_crash : forall k0 before v p between after,
  0 < rsz -> 0 < wsz -> codec_ok C -> (version < 2 ^ 16)%N -> fresh = POk k0 ->
  Forall (pop_ok C comp) (before ++ [OAppend v] ++ between ++ after) ->
  let k1 := snd (run before k0) in
  fst (step (OAppend v) k1) = XPos p ->
  let k2 := snd (step (OAppend v) k1) in
  Forall (keeps (pack_len k2)) between ->
  let k3 := snd (run between k2) in
  fst (step OCommit k3) = XUnit ->
  let k4 := snd (step OCommit k3) in
  Forall (keeps_or_crash (pack_len k2)) after ->
  fst (step (OFetch p) (snd (run after k4))) = XVal v.
Proof.
  intros k0 before v p between after Hr Hw HC Hv E F k1 Ea k2 K k3 Ec k4 K'.
  apply Forall_app in F. destruct F as [F1 F]. apply Forall_app in F. destruct F as [F2 F]. apply Forall_app in F. destruct F as [F3 F4].
  destruct (fresh_run before k0 Hr Hw HC Hv E F1) as (L & I). inversion F2 as [|? ? Hok _]; subst.
  destruct (append_rec C rsz wsz Hr Hw HC uidx version Hv comp k1 L v p I Hok Ea) as (L2 & I2 & Hin).
  destruct (keep_run C rsz wsz Hr Hw HC uidx version Hv comp between k2 L2 (p, pack_len k2, v) I2 F3 K Hin) as (L3 & I3 & Hin3).
  destruct (pack_step_ok C rsz wsz Hr Hw HC uidx version Hv comp OCommit k3 L3 I3 Logic.I) as (L4 & S & I4).
  destruct (i_recs _ _ _ _ _ _ I3 _ Hin3) as (_ & _ & Hb & _).
  assert (H4 : l_recs L4 = l_recs L3 /\ l_safe L4 = length (l_bytes L3)).
  { fold k3 in Ec. rewrite Ec in S. inversion S; subst; split; reflexivity. }
  destruct H4 as [H4 H5]. fold k4 in I4.
  destruct (safe_run C rsz wsz Hr Hw HC uidx version Hv comp after k4 L4 (p, pack_len k2, v) I4 F4 K') as (L5 & I5 & Hin5 & _).
  - rewrite H4. exact Hin3.
  - rewrite H5. exact Hb.
  - eapply fetch_rec; eauto.
Qed.

(* Iteration after a flush returns exactly the appended values in append order, without an error; truncations to a
   position an append returned remove exactly that record and the later ones. *)
Theorem C24_iteration_in_order : forall k0 ops,
  0 < rsz -> 0 < wsz -> codec_ok C -> (version < 2 ^ 16)%N -> fresh = POk k0 ->
  Forall (pop_ok C comp) ops -> at_boundaries [] ops (fst (run ops k0)) ->
  fst (step OIter (snd (step OFlushP (snd (run ops k0))))) = XVals (map snd (survivors [] ops (fst (run ops k0)))) None.
Proof.
  intros k0 ops Hr Hw HC Hv E F B. destruct (open_fresh C rsz wsz Hr Hw uidx version Hv comp) as (k & E' & I).
  rewrite E in E'. injection E' as <-.
  destruct (boundary_run C rsz wsz Hr Hw HC uidx version Hv comp ops k0 _ [] I F) as (L & IL & T & M).
  - cbn [l_recs l_bytes tiles]. now rewrite header_bytes_length.
  - reflexivity.
  - exact B.
  - rewrite <- M.
    destruct (pack_step_ok C rsz wsz Hr Hw HC uidx version Hv comp OFlushP _ L IL Logic.I) as (L1 & S1 & I1).
    inversion S1; subst. clear S1.
    destruct (pack_step_ok C rsz wsz Hr Hw HC uidx version Hv comp OIter _ _ I1 Logic.I) as (L2 & S2 & _).
    set (out := fst (step OIter (snd (step OFlushP (snd (run ops k0)))))) in *.
    destruct (tiles_bounds _ _ _ T) as [_ TB].
    assert (U : upto (length (l_bytes L)) (l_recs L) = l_recs L).
    { clear -TB. revert TB. generalize (length (l_bytes L)) as n. generalize (l_recs L) as rs. intros rs n.
      induction rs as [|r rs IH]; intros TB; auto. unfold upto. cbn [filter]. fold (upto n rs).
      destruct (Nat.leb_spec (r_end r) n) as [_|Hlt]; [|destruct (TB r (or_introl eq_refl)); lia].
      f_equal. apply IH. intros; apply TB; simpl; auto. }
    inversion S2 as [| | | | | | | | | | | | | | | | |L0 e T0 He EL Eo EL'|L0 vs e T0 He EL Eo EL'| |]; subst; cbn [relog l_recs l_bytes l_os] in *.
    + rewrite U. rewrite map_map. f_equal. apply He. rewrite U.
      assert (G : forall rs a b, tiles a rs b -> @last_end V a rs = b).
      { induction rs as [|r rs IH]; simpl; intros a b Ht; auto. destruct Ht as (_ & _ & Ht). unfold last_end; simpl. now apply IH. }
      change DATA_HEADER_BYTES with 28. rewrite (G _ _ _ T). lia.
    + contradiction.
Qed.

(* After a crash that leaves the file cut anywhere, iteration returns exactly the records that lie completely within
   what is left - so a prefix of the appended values, containing every committed one, never a wrong or partial value -
   and then reports an error, except that a remainder of fewer than 4 bytes ends it silently. *)
Theorem C24_torn_tail : forall k0 ops n,
  0 < rsz -> 0 < wsz -> codec_ok C -> (version < 2 ^ 16)%N -> fresh = POk k0 ->
  Forall (pop_ok C comp) ops -> at_boundaries [] ops (fst (run ops k0)) -> 28 <= n ->
  let k := snd (run ops k0) in
  exists recs m e,
    map (fun r => (r_start r, r_val r)) recs = survivors [] ops (fst (run ops k0)) /\
    tiles 28 recs (pack_len k) /\ m <= pack_len k /\
    fst (step OIter (snd (step (OCrash n) k))) = XVals (map r_val (upto m recs)) e /\
    (e = None <-> m < last_end 28 (upto m recs) + 4).
Proof.
  intros k0 ops n Hr Hw HC Hv E F B Hn k. destruct (open_fresh C rsz wsz Hr Hw uidx version Hv comp) as (k' & E' & I).
  rewrite E in E'. injection E' as <-.
  destruct (boundary_run C rsz wsz Hr Hw HC uidx version Hv comp ops k0 _ [] I F) as (L & IL & T & M).
  - cbn [l_recs l_bytes tiles]. now rewrite header_bytes_length.
  - reflexivity.
  - exact B.
  - fold k in IL. destruct (crash_iter C rsz wsz Hr Hw HC uidx version Hv comp k L n IL Hn T) as (m & e & Hm & Ho & He).
    exists (l_recs L), m, e. unfold pack_len. rewrite (inv_len _ _ _ _ _ _ IL). split; auto. split; auto. split; [lia|]. auto.
Qed.

(* Whatever bytes the file holds (bit rot, a torn or overwritten tail, a foreign file), opening it never lets an
   unchecked value out: every value fetched or iterated is the decoding of stored bytes whose length prefix and checksum
   match, and iterated values lie one directly after the other from the end of the header. *)
Theorem C24_only_checked_values : forall file safe ro k,
  0 < rsz -> safe <= length file -> file <> [] ->
  pack_open C rsz wsz file safe uidx version comp ro = POk k ->
  (forall p v, fst (step (OFetch p) k) = XVal v -> exists q, sound_record C (h_comp (k_hdr k)) file p q v) /\
  (forall vs e, pack_iter C uidx file = POk (vs, e) -> exists z, sound_records C z file 28 vs).
Proof.
  intros file safe ro k Hr Hs Hne E. split.
  - intros p v Hf. destruct (open_shows C rsz wsz Hr file safe uidx version comp ro k Hs Hne E) as [W A].
    cbn [pack_step] in Hf. unfold pack_fetch in Hf.
    destruct (read_checked C rsz p (k_df k)) as [[b|x] f'] eqn:Er; [|discriminate].
    destruct (unpayload C (h_comp (k_hdr k)) b) as [w|] eqn:Eu; cbn [xof fst] in Hf; [|discriminate]. injection Hf as <-.
    destruct (read_checked_sound C rsz Hr p _ b f' W Er) as (sb & cb & S1 & S2 & S3 & S4 & S5 & S6).
    destruct (unpayload_sound C _ _ _ Eu) as (d & D1 & D2).
    rewrite <- (abs_len _ W), A in S2. rewrite A in S1. exists (p + 8 + length b), sb, b, cb, d.
    replace (p + 8 + length b - p) with (8 + length b) by lia. split; [exact S1|]. repeat split; auto.
  - intros vs e Hi. unfold pack_iter in Hi. destruct (length file <? DATA_HEADER_BYTES); [discriminate|].
    destruct (load_header C uidx (firstn DATA_HEADER_BYTES file)) as [h|]; [|discriminate].
    destruct (negb (h_app h =? 1)%N); [discriminate|]. injection Hi as Hi.
    exists (h_comp h). eapply iter_all_sound; [exact Hr|exact Hi].
Qed.

(* A record larger than the 16 MiB limit is accepted by append but can never be read back, and hides everything after
   it from iteration: append does not check the limit that fetch and iteration enforce. *)
Theorem C24_oversize_record_refuted : forall k0 v b,
  0 < rsz -> 0 < wsz -> codec_ok C -> (version < 2 ^ 16)%N -> comp = false -> fresh = POk k0 ->
  enc C v = Some b -> (MAX_RECORD_SIZE < N.of_nat (length b) < 2 ^ 32)%N ->
  fst (step (OAppend v) k0) = XPos 28 /\
  fst (step (OFetch 28) (snd (step (OAppend v) k0))) = XFail ETooLarge.
Proof.
  intros k0 v b Hr Hw HC Hv Hc E Ee Hb. destruct (open_fresh C rsz wsz Hr Hw uidx version Hv comp) as (k' & E' & I).
  rewrite E in E'. injection E' as <-.
  assert (Ro : f_ro (k_df k0) = false) by apply (i_ro _ _ _ _ _ _ I).
  assert (Fa : k_failed k0 = false) by apply (i_failed _ _ _ _ _ _ I).
  assert (Le : pack_len k0 = 28) by (unfold pack_len; rewrite (inv_len _ _ _ _ _ _ I); apply header_bytes_length).
  assert (Hwv : exists f, write_value C wsz (h_comp (k_hdr k0)) v (k_df k0) = (POk tt, f) /\ wf_df f /\
     exists t, p_bytes (abs f) = p_bytes (abs (k_df k0)) ++ le 4 (N.of_nat (length b)) ++ t).
  { unfold write_value, payload. rewrite Ee, (i_hdr _ _ _ _ _ _ I). cbn [H0 h_comp]. rewrite Hc.
    rewrite N.mod_small by lia.
    destruct (write_all_ok wsz (le 4 (N.of_nat (length b))) (k_df k0) Hw (i_wf _ _ _ _ _ _ I) Ro) as (f1 & -> & W1 & R1 & A1 & _).
    destruct (write_all_ok wsz b f1 Hw W1 R1) as (f2 & -> & W2 & R2 & A2 & _).
    destruct (write_all_ok wsz (le 4 (crc C (le 4 (N.of_nat (length b)) ++ b))) f2 Hw W2 R2) as (f3 & -> & W3 & R3 & A3 & _).
    exists f3. split; auto. split; auto. eexists. rewrite A3, A2, A1. cbn [with_bytes p_bytes]. now rewrite <- !app_assoc. }
  destruct Hwv as (f & Ew & Wf & t & Hbt).
  cbn [pack_step]. unfold pack_append. rewrite Ro, Fa, Ew. cbn [fst snd xof]. rewrite Le. split; auto.
  unfold pack_fetch. cbn [on_df k_df k_hdr]. unfold read_checked. rewrite seek_start.
  rewrite (i_bytes _ _ _ _ _ _ I) in Hbt. cbn [l_bytes] in Hbt.
  destruct (rd_ok rsz Hr 4 (set_pos f 28) (wf_set_pos _ _ Wf)) as (f1 & -> & _).
  { cbn [f_pos set_pos]. change (df_len (set_pos f 28)) with (df_len f). rewrite <- abs_len by auto.
    rewrite Hbt, !app_length, header_bytes_length, le_length. lia. }
  rewrite abs_set_pos. cbn [p_bytes at_pos f_pos set_pos]. rewrite Hbt.
  rewrite slice_app_r by (rewrite header_bytes_length; lia). rewrite header_bytes_length, Nat.sub_diag.
  rewrite slice_cat_l by (now rewrite le_length). rewrite unle_le_id by (change (256 ^ N.of_nat 4)%N with (2 ^ 32)%N; lia).
  destruct (N.ltb_spec MAX_RECORD_SIZE (N.of_nat (length b))); [reflexivity|lia].
Qed.
End C24.

(* ---------- a concrete pack ---------- *)
(* values are byte strings stored with a terminator; compression reverses; the checksum is a weighted sum *)
Definition toy : codec bytes := mk_codec bytes
  (fun v => if existsb (N.eqb 255) v then None else Some (v ++ [255]%N))
  (fun b => match rev b with 255%N :: r => Some (rev r) | _ => None end)
  (fun b => rev b) (fun b => Some (rev b))
  (fun b => (fold_left (fun a x => a * 31 + x + 1) b 7 mod 2 ^ 32)%N)
  (fun i => ((i * 1000003 + 77) mod 2 ^ 64)%N).
Example C24_toy_codec_ok : codec_ok toy.
Proof.
  constructor; cbn -[N.pow]; intros.
  - destruct (existsb (N.eqb 255) v); [discriminate|]. injection H as <-. rewrite rev_unit. now rewrite rev_involutive.
  - now rewrite rev_involutive.
  - apply N.mod_lt. discriminate.
  - apply N.mod_lt. discriminate.
Qed.

Definition toy_ops : list (pop (V := bytes)) :=
  [OAppend [1; 2; 3]%N; OAppend []; OFetch 28; OCommit; OAppend [4; 4]%N; OFetch 49; OSize 49; OIter; OFlushP; OIter;
   OTruncate 49; OLenP; OAppend [6]%N; OCrash 50; OFetch 49; OFetch 28; OIter; OTruncate 49; OIter; OAppend [7]%N; OAppend [255]%N; OAppend [8]%N;
   OReopenP true; OFetch 49; OAppend []; OTruncate 30; OIter].
Example C24_example :
  exists k0, pack_open toy 5 10 [] 0 3 1 true false = POk k0 /\
  Forall (pop_ok toy true) toy_ops /\
  fst (pack_run toy 5 10 3 1 toy_ops k0) =
    [XPos 28; XPos 40; XVal [1; 2; 3]%N; XUnit; XPos 49; XVal [4; 4]%N; XNum 11; XVals [[1; 2; 3]%N; []] (Some (EIo Eof)); XUnit; XVals [[1; 2; 3]%N; []; [4; 4]%N] None;
     XUnit; XPos 49; XPos 49; XUnit; XFail (EIo Eof); XVal [1; 2; 3]%N; XVals [[1; 2; 3]%N; []] None; XUnit; XVals [[1; 2; 3]%N; []] None; XPos 49; XFail EWrite; XFail EWrite;
     XUnit; XVal [7]%N; XFail EReadOnly; XFail (EIo OsErr); XVals [[1; 2; 3]%N; []; [7]%N] None].
Proof.
  eexists. split; [vm_compute; reflexivity|]. split.
  - apply Forall_forall. intros o Ho. unfold toy_ops in Ho. cbn [In] in Ho.
    repeat (destruct Ho as [<-|Ho]; [unfold pop_ok, DATA_HEADER_BYTES;
      first [exact Logic.I | lia | right; reflexivity
            | left; eexists; (split; [vm_compute; reflexivity|]); vm_compute; split; discriminate]|]).
    destruct Ho.
  - vm_compute. reflexivity.
Qed.

(* A commit that fails part-way and is retried: the buffer is written again after the bytes that had already reached
   the file, both commits are over, the second one answered Ok, and the record is gone. *)
Theorem C24_commit_retry_refuted :
  exists k0 k1 k2 k3 k4,
    pack_open toy 64 64 [] 0 3 1 false false = POk k0 /\
    pack_append toy 64 [1; 2; 3]%N k0 = (POk 28, k1) /\
    pack_commit_fail 5 k1 = (PErr EWrite, k2) /\            (* disk full after 5 of the 12 bytes *)
    pack_commit k2 = (POk tt, k3) /\                        (* space was freed, the commit is retried *)
    pack_step toy 64 64 3 1 (OReopenP false) k3 = (XUnit, k4) /\
    fst (pack_step toy 64 64 3 1 (OFetch 28) k4) = XFail ECrc.
Proof. do 5 eexists. do 5 (split; [vm_compute; reflexivity|]). vm_compute. reflexivity. Qed.

(* the oversize finding is about values that exist *)
Lemma toy_any_size : forall m, (m < 2 ^ 32 - 1)%N -> exists v b, enc toy v = Some b /\ (m < N.of_nat (length b) < 2 ^ 32)%N.
Proof.
  intros m Hm. exists (repeat 1%N (N.to_nat m)), (repeat 1%N (N.to_nat m) ++ [255]%N). split.
  - unfold toy, enc. assert (E : forall n, existsb (N.eqb 255) (repeat 1%N n) = false) by (induction n; simpl; auto).
    now rewrite E.
  - rewrite app_length, repeat_length. cbn [length]. lia.
Qed.
Example C24_oversize_example : exists v b, enc toy v = Some b /\ (MAX_RECORD_SIZE < N.of_nat (length b) < 2 ^ 32)%N.
Proof. apply toy_any_size. reflexivity. Qed.
