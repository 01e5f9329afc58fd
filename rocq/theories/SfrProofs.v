(** Proofs for C65. *)
From Verif Require Import Util WireModel WireSpec WireProofs CodecModel CodecSpec CodecProofs CodecMsg Props_Codec SfrModel SfrSpec.
Local Open Scope N_scope.

(* ---------- BCS ---------- *)
Lemma orderedb_ok l : orderedb l = true -> ordered l.
Proof.
  induction l as [|a t IH]; [constructor|]. cbn [orderedb]. rewrite andb_true_iff, forallb_forall. intros [H1 H2].
  constructor; [apply IH; auto|]. apply Forall_forall. auto.
Qed.
Lemma uleb_len n : (length (uleb n) <= 5)%nat.
Proof.
  unfold uleb. assert (G : forall f m, (length (uleb_f f m) <= S f)%nat); [|apply (G 4%nat)].
  induction f as [|f IH]; intros m; [simpl; lia|]. rewrite uleb_step. destruct (m <? 128); [simpl; lia|]. simpl. specialize (IH (m / 128)). lia.
Qed.
Lemma tag_reads n : n < 2 ^ 32 -> reads get_uleb (uleb n) n. Proof. apply uleb_reads. Qed.

Lemma wreq_reads r : wreq_ok r = true -> reads get_wreq (put_wreq r) r.
Proof.
  destruct r as [ds e]. cbn [wreq_ok put_wreq]. rewrite !andb_true_iff. intros [[[H1 H2] H3] H4].
  unfold get_wreq, tag. eapply reads_bind; [apply tag_reads; reflexivity|]. change (0 =? 0) with true. cbv iota.
  assert (F : fits ds) by (unfold fits, fitsb in *; change (2 ^ 31) with 2147483648; lia).
  eapply reads_bind; [apply (seq_reads _ put_fixed); [exact F|]|].
  - apply Forall_forall. intros d Hd. rewrite forallb_forall in H2. apply fixed_reads; [apply Nat.eqb_eq; auto|reflexivity].
  - eapply reads_bind_last; [apply int_reads; unfold u32b in H4; change (256 ^ N.of_nat 4) with 4294967296; lia|].
    rewrite bset_of_ordered by (apply orderedb_ok; auto). reflexivity.
Qed.
Lemma preq_reads r : preq_ok r = true -> reads get_preq (put_preq r) r.
Proof.
  unfold get_preq, tag, put_preq, preq_ok. destruct r as [e|lo sk|e n|n]; rewrite ?andb_true_iff; intros H;
    (eapply reads_bind; [apply tag_reads; reflexivity|]); cbn [N.eqb Pos.eqb]; cbv iota.
  - eapply reads_bind_last; [apply int_reads; unfold u32b in H; change (256 ^ N.of_nat 4) with 4294967296; lia|reflexivity].
  - destruct H as [[H1 H2] H3].
    eapply reads_bind; [apply int_reads; unfold u32b in H1; change (256 ^ N.of_nat 4) with 4294967296; lia|].
    assert (F : fits sk) by (unfold fits, fitsb in *; change (2 ^ 31) with 2147483648; lia).
    eapply reads_bind_last; [apply (seq_reads _ (fun p => fst p ++ put_fixed (snd p))); [exact F|]|reflexivity].
    apply Forall_forall. intros [a b] Hp. rewrite forallb_forall in H3. apply H3 in Hp. cbn [fst snd] in *. apply andb_true_iff in Hp. destruct Hp as [Hl Hb].
    eapply reads_bind; [apply take_reads'; apply Nat.eqb_eq; auto|].
    eapply reads_bind_last; [apply vec_reads; unfold fitsb in Hb; change (2 ^ 31) with 2147483648; lia|reflexivity].
  - destruct H as [H1 H2].
    eapply reads_bind; [apply int_reads; unfold u32b in H1; change (256 ^ N.of_nat 4) with 4294967296; lia|].
    eapply reads_bind_last; [apply int_reads; unfold u64b in H2; change (256 ^ N.of_nat 8) with 18446744073709551616; lia|reflexivity].
  - eapply reads_bind_last; [apply int_reads; unfold u64b in H; change (256 ^ N.of_nat 8) with 18446744073709551616; lia|reflexivity].
Qed.

Section F.
Variable R : Type.
Variable put_req : R -> bytes.
Variable get_req : parser R.
Variable req_ok : R -> bool.
Hypothesis req_reads : forall r, req_ok r = true -> reads get_req (put_req r) r.
Lemma frame_inv f b : enc_frame R put_req req_ok f = Some b -> dec_frame R get_req b = Some f.
Proof using req_reads.
  unfold dec_frame. intros E. apply reads_from. revert E.
  destruct f as [r| |d|bs| |e]; cbn [enc_frame].
  - destruct (req_ok r) eqn:Er; [|discriminate]. intros E; injection E as <-. unfold get_frame, put_frame, tag.
    eapply reads_bind; [apply tag_reads; reflexivity|]. change (0 =? 0) with true. cbv iota.
    eapply reads_bind_last; [apply req_reads; auto|reflexivity].
  - intros E; injection E as <-. intros rest. reflexivity.
  - intros E; injection E as <-. destruct d; intros rest; reflexivity.
  - destruct (N.ltb_spec (lenN bs) 2147483648) as [L|]; [|discriminate]. intros E; injection E as <-. unfold get_frame, put_frame, tag.
    eapply reads_bind; [apply tag_reads; reflexivity|]. cbn [N.eqb Pos.eqb]. cbv iota.
    eapply reads_bind_last; [apply vec_reads; unfold lenN in L; change (2 ^ 31) with 2147483648; exact L|reflexivity].
  - intros E; injection E as <-. intros rest. reflexivity.
  - intros E; injection E as <-. destruct e; intros rest; reflexivity.
Qed.
End F.
Lemma penc_inv f b : penc f = Some b -> pdec b = Some f.
Proof. apply frame_inv. apply preq_reads. Qed.

(* ---------- the exchange ---------- *)
Notation MX := MAX_SYNC_PACK_FRAME_SIZE.
Notation sendf := (sendable pframe penc MX).
Lemma MX_ok : limit_ok MX. Proof. reflexivity. Qed.
Lemma data_sendable b : lenN b <= 262144 -> sendf (Data b).
Proof.
  intros L. exists (put_frame preq put_preq (Data b)). unfold penc. cbn [enc_frame]. destruct (N.ltb_spec (lenN b) 2147483648); [|lia].
  split; [reflexivity|]. unfold put_frame, tag, put_fixed. unfold lenN in *. rewrite !app_length.
  pose proof (uleb_len (N.of_nat (length b))). pose proof (uleb_len 3). change MX with 263168. lia.
Qed.
Lemma small_sendable f : (match f with Req _ | Data _ => False | _ => True end) -> sendf f.
Proof. destruct f as [r| |[]|b| |[]]; intros H; try tauto; eexists; split; try reflexivity; cbv; discriminate. Qed.

Lemma app_split {A} (a b c d : list A) : a ++ b = c ++ d -> (length c <= length a)%nat -> exists m, a = c ++ m /\ m ++ b = d.
Proof.
  revert a; induction c as [|x c IH]; intros a E L; [exists a; auto|]. destruct a as [|y a]; [simpl in L; lia|].
  simpl in E. injection E as -> E. destruct (IH a E ltac:(simpl in L; lia)) as [m [-> Hm]]. exists m. auto.
Qed.

Section X0.
Variable blk_c : bytes -> bytes.
Variable crc : bytes -> N.
Notation encode := (encode_message pframe penc blk_c crc).
Notation serve := (serve blk_c crc).
Definition wire (f : pframe) (w : bytes) : Prop := fst (fst (encode f [] [] MX)) = Some w.
Lemma wire_nonempty f w : wire f w -> (1 <= length w)%nat.
Proof using All.
  intros H. destruct (encode_bytes _ _ _ _ _ _ _ _ _ MX_ok H) as [b [_ [_ [_ [_ [_ [_ ->]]]]]]].
  rewrite app_length, CodecProofs.le_length. lia.
Qed.
Lemma send_wires fs : Forall sendf fs -> forall k, k_max k = MX -> exists wl k', Forall2 wire fs wl /\ write_all pframe penc blk_c crc k fs = (concat wl, k', true) /\ k_max k' = MX.
Proof using All.
  induction 1 as [|f fs S _ IH]; intros k K.
  - exists [], k. split; [constructor|]. split; [reflexivity|auto].
  - apply (C64_encode_exact pframe penc blk_c crc f (k_buf k) (k_comp k) MX) in S. destruct S as [w W].
    cbn [write_all]. unfold codec_write. rewrite K.
    destruct (encode f (k_buf k) (k_comp k) MX) as [[o eb] cb] eqn:E. cbn [fst] in W. subst o.
    destruct (IH {| k_buf := eb; k_comp := cb; k_max := MX |} eq_refl) as [wl [k' [F2 [Ew K']]]]. rewrite Ew.
    exists (w :: wl), k'. split; [constructor; [unfold wire; change (encode f [] [] MX) with (encode f (k_buf k) (k_comp k) MX); rewrite E; reflexivity|auto]|]. auto.
Qed.

Lemma serve_wires s : Forall (fun p => lenN p <= 262144) (s_pieces s) ->
  exists wa wl wlast last, wire Ack wa /\ Forall2 wire (map Data (s_pieces s)) wl /\ wire last wlast /\
    last = (if s_ok s then End else ErrF Internal) /\ serve (Some s) = wa ++ concat wl ++ wlast.
Proof using All.
  intros Hp. unfold SfrModel.serve, send_frames, serve_frames.
  assert (S : Forall sendf (Ack :: map Data (s_pieces s) ++ [if s_ok s then End else ErrF Internal])).
  { constructor; [apply small_sendable; exact I|]. apply Forall_app. split.
    - apply Forall_map. eapply Forall_impl; [|exact Hp]. intros b. apply data_sendable.
    - constructor; [|constructor]. apply small_sendable. destruct (s_ok s); exact I. }
  destruct (send_wires _ S new_codec eq_refl) as [wl [k' [F [-> _]]]]. cbn [fst].
  inversion F as [|? wa ? wl' Wa F']; subst. apply Forall2_app_inv_l in F'. destruct F' as [w1 [w2 [F1 [F2 ->]]]].
  inversion F2 as [|? wz ? w0 Wz F0]; subst. inversion F0; subst.
  exists wa, w1, wz, (if s_ok s then End else ErrF Internal). repeat split; auto.
  cbn [concat]. rewrite concat_app. cbn [concat]. rewrite app_nil_r. reflexivity.
Qed.

End X0.

Section X.
Variable blk_c : bytes -> bytes.
Variable blk_d : bytes -> option bytes.
Variable crc : bytes -> N.
Hypothesis crc32 : forall d, crc d < 2 ^ 32.
Hypothesis blk_inv : forall b, blk_d (blk_c b) = Some b.
Notation encode := (encode_message pframe penc blk_c crc).
Notation rdc := (codec_read pframe pdec blk_d crc).
Notation reader := (pack_reader blk_d crc).
Notation Frame := (OnWire pframe pdec blk_d crc MX).
Notation fetch := (fetch blk_d crc).
Notation serve := (serve blk_c crc).
Notation wire := (wire blk_c crc).

Lemma step f w r k rest : wire f w -> k_max k = MX -> honest_io r -> arrived r = w ++ rest ->
  exists k' r', rdc k r = (Msg f, k', r') /\ arrived r' = rest /\ honest_io r' /\ fin r' = fin r /\ k_max k' = MX.
Proof using All.
  intros W K H A. destruct (encode_bytes _ _ _ _ _ _ _ _ _ MX_ok W) as [b [Eb [L _]]].
  destruct (decode_written pframe penc pdec blk_c blk_d crc crc32 blk_inv penc_inv f [] [] MX MX w b r (k_buf k) (k_comp k) rest MX_ok W Eb L H A) as [D1 [D2 [D3 D4]]].
  unfold codec_read. rewrite K. cbv zeta. rewrite D1. eexists _, _. split; [reflexivity|]. auto.
Qed.
Lemma cut_step f w r k miss : wire f w -> k_max k = MX -> honest_io r -> w = arrived r ++ miss -> miss <> [] ->
  exists o k' r', rdc k r = (o, k', r') /\ o = match fin r with Closed => Err EEof | Failed => Err EIo | Silent => Wait end.
Proof using All.
  intros W K H A Hm. destruct (encode_bytes _ _ _ _ _ _ _ _ _ MX_ok W) as [b [Eb [L _]]].
  unfold codec_read. rewrite K. cbv zeta. eexists _, _, _. split; [reflexivity|].
  eapply (C64_cut_short pframe penc pdec blk_c blk_d crc crc32 blk_inv penc_inv f [] [] MX w MX r (k_buf k) (k_comp k) miss); auto; [exact MX_ok|].
  exists b. auto.
Qed.
(** the whole of a transfer *)
Lemma reader_whole ps : forall wl wlast last fuel k r rest, Forall2 wire (map Data ps) wl -> wire last wlast ->
  (last = End \/ exists e, last = ErrF e) -> k_max k = MX -> honest_io r -> arrived r = concat wl ++ wlast ++ rest ->
  (length (arrived r) < fuel)%nat -> reader fuel k r = (concat ps, match last with End => Complete | _ => Broken end).
Proof using All.
  induction ps as [|p ps IH]; intros wl wlast last fuel k r rest F W Hl K H A Hf; (destruct fuel as [|fuel]; [lia|]); cbn [pack_reader].
  - inversion F; subst wl. cbn [concat app] in A.
    destruct (step _ _ _ _ _ W K H A) as [k' [r' [E _]]]. rewrite E. destruct Hl as [->|[e ->]]; reflexivity.
  - cbn [map] in F. inversion F as [|? w ? wl' Wd F']; subst. cbn [concat] in A. rewrite <- app_assoc in A.
    destruct (step _ _ _ _ _ Wd K H A) as [k' [r' [E [A' [H' [_ K']]]]]]. rewrite E.
    rewrite (IH wl' wlast last fuel k' r' rest); auto.
    rewrite A in Hf. rewrite A'. pose proof (wire_nonempty _ _ _ _ Wd). rewrite app_length in Hf. lia.
Qed.
(** a beginning of it *)
Lemma reader_cut ps : forall wl wlast last fuel k r miss, Forall2 wire (map Data ps) wl -> wire last wlast ->
  k_max k = MX -> honest_io r -> arrived r ++ miss = concat wl ++ wlast -> miss <> [] ->
  (length (arrived r) < fuel)%nat -> exists j, reader fuel k r = (concat (firstn j ps), unfinished (fin r)).
Proof using All.
  induction ps as [|p ps IH]; intros wl wlast last fuel k r miss F W K H A Hm Hf; (destruct fuel as [|fuel]; [lia|]); cbn [pack_reader].
  - inversion F; subst wl. cbn [concat app] in A. exists 0%nat.
    destruct (cut_step _ _ _ _ _ W K H (eq_sym A) Hm) as [o [k' [r' [E ->]]]]. rewrite E. destruct (fin r); reflexivity.
  - cbn [map] in F. inversion F as [|? w ? wl' Wd F']; subst. cbn [concat] in A. rewrite <- app_assoc in A.
    destruct (Nat.leb_spec (length w) (length (arrived r))) as [L|L].
    + destruct (app_split _ _ _ _ A L) as [a' [A1 A2]].
      destruct (step _ _ _ _ _ Wd K H A1) as [k' [r' [E [A' [H' [Fi K']]]]]]. rewrite E.
      rewrite <- A' in A2. destruct (IH wl' wlast last fuel k' r' miss F' W K' H' A2 Hm) as [j Ej].
      { rewrite A1 in Hf. rewrite A'. pose proof (wire_nonempty _ _ _ _ Wd). rewrite app_length in Hf. lia. }
      rewrite Ej. exists (S j). rewrite Fi. reflexivity.
    + symmetry in A. destruct (app_split _ _ _ _ A) as [m [Aw _]]; [lia|].
      destruct (cut_step _ _ _ _ m Wd K H Aw) as [o [k' [r' [E ->]]]].
      { intros ->. rewrite app_nil_r in Aw. subst w. lia. }
      rewrite E. exists 0%nat. destruct (fin r); reflexivity.
Qed.
End X.

Section X2.
Variable blk_d : bytes -> option bytes.
Variable crc : bytes -> N.
Hypothesis crc32 : forall d, crc d < 2 ^ 32.
Notation rdc := (codec_read pframe pdec blk_d crc).
Notation reader := (pack_reader blk_d crc).
Notation Frame := (OnWire pframe pdec blk_d crc MX).
(* ---------- whatever arrives ---------- *)
Lemma read_exact_frame k r f r' k' : k_max k = MX -> honest_io r -> Forall is_byte (arrived r) -> rdc k r = (Msg f, k', r') ->
  (exists w, arrived r = w ++ arrived r' /\ Frame w f) /\ honest_io r' /\ k_max k' = MX /\ Forall is_byte (arrived r').
Proof using All.
  intros K H B E. unfold codec_read in E. cbv zeta in E. injection E as E1 E2 E3.
  destruct (decode_pure pframe pdec blk_d crc r (k_buf k) (k_comp k) (k_max k) H) as [_ Q]. destruct (Q f E1) as [Q1 _].
  destruct (proj1 (C64_decode_exact pframe pdec blk_d crc crc32 r (k_buf k) (k_comp k) (k_max k) f (arrived r') H B)) as [w [Ew Ow]].
  { rewrite E3. auto. }
  rewrite E3 in Q1. rewrite K in Ow. split; [eauto|]. split; [auto|]. split; [subst k'; exact K|].
  rewrite Ew in B. apply Forall_app in B. apply B.
Qed.
Lemma read_frame_back k r w f rest : k_max k = MX -> honest_io r -> Forall is_byte (arrived r) -> arrived r = w ++ rest -> Frame w f ->
  exists k' r', rdc k r = (Msg f, k', r') /\ arrived r' = rest /\ honest_io r' /\ k_max k' = MX /\ (length rest < length (arrived r))%nat.
Proof using All.
  intros K H B A F. unfold codec_read. rewrite K. cbv zeta.
  destruct (proj2 (C64_decode_exact pframe pdec blk_d crc crc32 r (k_buf k) (k_comp k) MX f rest H B)) as [D1 D2]; [eauto|].
  destruct (decode_pure pframe pdec blk_d crc r (k_buf k) (k_comp k) MX H) as [_ Q]. destruct (Q f D1) as [Q1 _].
  rewrite D1. eexists _, _. split; [reflexivity|]. split; [auto|]. split; [auto|]. split; [auto|].
  destruct F as [u [bo [p [-> _]]]]. rewrite A, !app_length, CodecProofs.le_length. lia.
Qed.
Lemma reader_sound fuel : forall k r d, k_max k = MX -> honest_io r -> Forall is_byte (arrived r) ->
  reader fuel k r = (d, Complete) -> Transfer blk_d crc (arrived r) d.
Proof using All.
  induction fuel as [|fuel IH]; intros k r d K H B; cbn [pack_reader]; [discriminate|].
  destruct (rdc k r) as [[o k'] r'] eqn:E. destruct o as [f|e|]; try discriminate.
  destruct (read_exact_frame _ _ _ _ _ K H B E) as [[w [Ew Ow]] [H' [K' B']]].
  destruct f as [q| |dn|b| |e]; try discriminate.
  - destruct (reader fuel k' r') as [t f] eqn:Er. intros X. injection X as <- ->. rewrite Ew. constructor; [exact Ow|].
    eapply IH; eauto.
  - intros X. injection X as <-. rewrite Ew. constructor. exact Ow.
Qed.
Lemma reader_back bs d : Transfer blk_d crc bs d -> forall fuel k r, k_max k = MX -> honest_io r -> Forall is_byte (arrived r) ->
  arrived r = bs -> (length bs < fuel)%nat -> reader fuel k r = (d, Complete).
Proof using All.
  induction 1 as [w rest F|w b ws ds F T IH]; intros fuel k r K H B A L; (destruct fuel as [|fuel]; [lia|]); cbn [pack_reader].
  - destruct (read_frame_back _ _ _ _ _ K H B A F) as [k' [r' [E _]]]. rewrite E. reflexivity.
  - destruct (read_frame_back _ _ _ _ _ K H B A F) as [k' [r' [E [A' [H' [K' Ln]]]]]]. rewrite E.
    rewrite (IH fuel k' r'); auto.
    + rewrite A'. rewrite A in B. apply Forall_app in B. apply B.
    + rewrite A in Ln. lia.
Qed.
End X2.
