(** C65: exchanges over a sync stream. *)
From Verif Require Import Util WireModel WireSpec WireProofs CodecModel CodecSpec CodecProofs CodecMsg Props_Codec SfrModel SfrSpec SfrProofs.
Local Open Scope N_scope.

Lemma ordered_orderedb l : StronglySorted (fun a b => blt a b = true) l -> orderedb l = true.
Proof.
  induction 1 as [|a t _ IH F]; [reflexivity|]. cbn [orderedb]. rewrite IH, andb_true_r. apply forallb_forall.
  rewrite Forall_forall in F. auto.
Qed.
Lemma wreq_ok_spec r : wreq_ok r = true <-> worker_request r.
Proof.
  destruct r as [ds e]. unfold worker_request, digest_set. cbn [wreq_ok]. rewrite !andb_true_iff, forallb_forall, Forall_forall.
  unfold fitsb, u32b. rewrite !N.ltb_lt. change (2 ^ 31) with 2147483648. change (2 ^ 32) with 4294967296. split.
  - intros [[[A B] C] D]. repeat split; auto.
    + intros x Hx. apply Nat.eqb_eq. auto.
    + apply orderedb_ok in C. apply Sorted_StronglySorted; [intros x y z; apply blt_trans|]. apply StronglySorted_Sorted. exact C.
  - intros [[A [B C]] D]. repeat split; auto.
    + intros x Hx. apply Nat.eqb_eq. auto.
    + apply ordered_orderedb. auto.
Qed.
Lemma preq_ok_spec r : preq_ok r = true <-> primary_request r.
Proof.
  destruct r as [e|lo sk|e n|n]; unfold primary_request, preq_ok, u32b, u64b, fitsb;
    change (2 ^ 31) with 2147483648; change (2 ^ 32) with 4294967296; change (2 ^ 64) with 18446744073709551616;
    rewrite ?andb_true_iff, ?N.ltb_lt; try tauto.
  rewrite forallb_forall, Forall_forall. split.
  - intros [[A B] C]. repeat split; auto; apply C in H; apply andb_true_iff in H; destruct H as [H1 H2];
      [apply Nat.eqb_eq in H1; auto|apply N.ltb_lt in H2; auto].
  - intros [A [B C]]. repeat split; auto. intros p Hp. apply C in Hp. destruct Hp as [H1 H2]. rewrite H1, Nat.eqb_refl. cbn [andb].
    apply N.ltb_lt. auto.
Qed.

(** A frame is encoded exactly if its parts are well formed, and its bytes are read back as that frame; so two frames never have the
    same bytes. *)
Theorem C65_frames :
  (forall f, (exists b, enc_frame wreq put_wreq wreq_ok f = Some b) <-> wellformed worker_request f) /\
  (forall f b, enc_frame wreq put_wreq wreq_ok f = Some b -> dec_frame wreq get_wreq b = Some f) /\
  (forall f, (exists b, enc_frame preq put_preq preq_ok f = Some b) <-> wellformed primary_request f) /\
  (forall f b, enc_frame preq put_preq preq_ok f = Some b -> dec_frame preq get_preq b = Some f).
Proof.
  assert (G : forall R put ok (P : R -> Prop), (forall r, ok r = true <-> P r) ->
    forall f, (exists b, enc_frame R put ok f = Some b) <-> wellformed P f).
  { intros R put ok P E f. destruct f as [r| |d|b| |e]; cbn [enc_frame wellformed]; try (split; eauto; fail).
    - rewrite <- E. destruct (ok r); split; eauto; [intros [b X]; discriminate|discriminate].
    - change (2 ^ 31) with 2147483648. destruct (N.ltb_spec (lenN b) 2147483648); split; eauto; [intros [x X]; discriminate|lia]. }
  split; [apply G, wreq_ok_spec|]. split; [apply frame_inv, wreq_reads|]. split; [apply G, preq_ok_spec|apply frame_inv, preq_reads].
Qed.
(** The first bytes are fixed: nodes of different versions agree on them. *)
Theorem C65_tags : forall f b, penc f = Some b ->
  match f with
  | Req (EpochPack e) => b = [0; 0] ++ CodecModel.le 4 e
  | Req (MissingCertificates _ _) => firstn 2 b = [0; 1]
  | Req (EpochPackPartial e n) => b = [0; 2] ++ CodecModel.le 4 e ++ CodecModel.le 8 n
  | Req (ConsensusOutput n) => b = [0; 3] ++ CodecModel.le 8 n
  | Ack => b = [1]
  | Deny AtCapacity => b = [2; 0] | Deny Unavailable => b = [2; 1]
  | Data d => exists p, b = [3] ++ p ++ d /\ (1 <= length p <= 5)%nat
  | End => b = [4]
  | ErrF Internal => b = [5; 0] | ErrF Malformed => b = [5; 1]
  end.
Proof.
  assert (LE : forall k x, WireModel.le k x = CodecModel.le k x).
  { induction k as [|k IH]; intros x; reflexivity || (cbn; f_equal; apply IH). }
  intros f b. unfold penc. destruct f as [r| |[]|d| |[]]; cbn [enc_frame]; try (intros E; injection E as <-; reflexivity).
  - destruct (preq_ok r); [|discriminate]. intros E. injection E as <-. destruct r as [e|lo sk|e n|n]; cbn [put_frame put_preq];
      unfold tag; rewrite ?LE; try reflexivity.
  - destruct (lenN d <? 2147483648); [|discriminate]. intros E. injection E as <-. cbn [put_frame]. unfold tag, put_fixed.
    exists (uleb (N.of_nat (length d))). split; [reflexivity|]. split; [|apply uleb_len].
    unfold uleb. rewrite uleb_step. destruct (_ <? 128); simpl; lia.
Qed.

Section T.
Variable blk_c : bytes -> bytes.
Variable blk_d : bytes -> option bytes.
Variable crc : bytes -> N.
Hypothesis crc32 : forall d, crc d < 2 ^ 32.
Hypothesis blk_inv : forall b, blk_d (blk_c b) = Some b.
Notation serve := (serve blk_c crc).
Notation fetch := (fetch blk_d crc).
Notation wire := (wire blk_c crc).

Lemma fetch_ack wa r rest : wire Ack wa -> honest_io r -> arrived r = wa ++ rest ->
  exists r', fetch r = (let '(b, f) := pack_reader blk_d crc (S (length (arrived r'))) new_codec r' in Accepted b f) /\
    arrived r' = rest /\ honest_io r' /\ fin r' = fin r.
Proof using All.
  intros W H A. destruct (step blk_c blk_d crc crc32 blk_inv Ack wa r new_codec rest W eq_refl H A) as [k' [r' [E [A' [H' [F' _]]]]]].
  exists r'. split; [|auto]. unfold SfrModel.fetch. rewrite E. reflexivity.
Qed.

(** However the bytes are cut into segments and whatever follows them, the bytes of the source arrive, in order and once, and the
    receiver takes the transfer for complete exactly if the source did not fail. *)
Theorem C65_transfer s r rest : pieces_ok s -> honest_io r -> arrived r = serve (Some s) ++ rest ->
  fetch r = Accepted (content s) (if s_ok s then Complete else Broken).
Proof using All.
  intros P H A. destruct (serve_wires blk_c crc s P) as [wa [wl [wz [last [Wa [F [Wz [El Es]]]]]]]]. rewrite Es, <- !app_assoc in A.
  destruct (fetch_ack wa r _ Wa H A) as [r' [-> [A' [H' _]]]].
  rewrite (reader_whole blk_c blk_d crc crc32 blk_inv (s_pieces s) wl wz last _ new_codec r' rest F Wz); auto.
  - rewrite El. unfold content. destruct (s_ok s); reflexivity.
  - rewrite El. destruct (s_ok s); eauto.
Qed.
(** Nothing to serve is a denial. *)
Theorem C65_nothing r rest : honest_io r -> arrived r = serve None ++ rest -> fetch r = Denied.
Proof using All.
  intros H A. destruct (send_wires blk_c crc [Deny Unavailable]) with (k := new_codec) as [wl [k' [F [E _]]]].
  { constructor; [apply small_sendable; exact I|constructor]. } { reflexivity. }
  unfold SfrModel.serve, send_frames, serve_frames in A. rewrite E in A. cbn [fst] in A.
  inversion F as [|? w ? wl' W F0]; subst. inversion F0; subst. cbn [concat] in A. rewrite app_nil_r in A.
  destruct (step blk_c blk_d crc crc32 blk_inv _ w r new_codec rest W eq_refl H A) as [k2 [r' [E2 _]]].
  unfold SfrModel.fetch. rewrite E2. reflexivity.
Qed.
(** A server that is cut off anywhere, or whose stream stalls there: the receiver never takes the transfer for complete, and has
    handed over whole pieces from the beginning. *)
Theorem C65_cut s r miss : pieces_ok s -> honest_io r -> serve (Some s) = arrived r ++ miss -> miss <> [] ->
  fetch r = (match fin r with Silent => Waiting | _ => Refused end) \/
  exists j, fetch r = Accepted (concat (firstn j (s_pieces s))) (unfinished (fin r)).
Proof using All.
  intros P H A Hm. destruct (serve_wires blk_c crc s P) as [wa [wl [wz [last [Wa [F [Wz [El Es]]]]]]]]. rewrite Es in A.
  destruct (Nat.leb_spec (length wa) (length (arrived r))) as [L|L].
  - destruct (app_split _ _ _ _ (eq_sym A) L) as [a' [A1 A2]].
    destruct (fetch_ack wa r a' Wa H A1) as [r' [-> [A' [H' Fi]]]]. rewrite <- A' in A2.
    destruct (reader_cut blk_c blk_d crc crc32 blk_inv (s_pieces s) wl wz last (S (length (arrived r'))) new_codec r' miss F Wz) as [j E]; auto.
    rewrite E, Fi. eauto.
  - destruct (app_split _ _ _ _ A) as [m [Aw _]]; [lia|].
    destruct (cut_step blk_c blk_d crc crc32 blk_inv Ack wa r new_codec m Wa eq_refl H Aw) as [o [k' [r' [E ->]]]].
    { intros ->. rewrite app_nil_r in Aw. subst wa. lia. }
    left. unfold SfrModel.fetch. rewrite E. destruct (fin r); reflexivity.
Qed.
(** The requests of a fixed size are sent, and read as what they are. *)
Theorem C65_request q r rest : primary_request q -> match q with MissingCertificates _ _ => False | _ => True end ->
  exists w, write_all pframe penc blk_c crc new_codec [Req q] = (w, snd (fst (write_all pframe penc blk_c crc new_codec [Req q])), true) /\
    (honest_io r -> arrived r = w ++ rest -> fst (fst (codec_read pframe pdec blk_d crc new_codec r)) = Msg (Req q)).
Proof using All.
  intros Hq Hf. assert (S : sendable pframe penc MAX_SYNC_PACK_FRAME_SIZE (Req q)).
  { exists (put_frame preq put_preq (Req q)). unfold penc. cbn [enc_frame]. rewrite (proj2 (preq_ok_spec q) Hq). split; [reflexivity|].
    unfold put_frame, tag. unfold lenN. rewrite app_length. pose proof (uleb_len 0). change MAX_SYNC_PACK_FRAME_SIZE with 263168.
    destruct q as [e|lo sk|e n|n]; [| tauto | |]; unfold put_preq, tag; rewrite !app_length, ?WireProofs.le_length.
    - pose proof (uleb_len 0). lia.
    - pose proof (uleb_len 2). lia.
    - pose proof (uleb_len 3). lia. }
  destruct (send_wires blk_c crc [Req q]) with (k := new_codec) as [wl [k' [F [E _]]]].
  { constructor; [exact S|constructor]. } { reflexivity. }
  rewrite E. exists (concat wl). split; [reflexivity|]. intros H A.
  inversion F as [|? w ? wl' W F0]; subst. inversion F0; subst. cbn [concat] in A. rewrite app_nil_r in A.
  destruct (step blk_c blk_d crc crc32 blk_inv _ w r new_codec rest W eq_refl H A) as [k2 [r' [E2 _]]]. rewrite E2. reflexivity.
Qed.
End T.

Section E.
Variable blk_d : bytes -> option bytes.
Variable crc : bytes -> N.
Hypothesis crc32 : forall d, crc d < 2 ^ 32.
Notation fetch := (fetch blk_d crc).
Notation Frame := (OnWire pframe pdec blk_d crc 263168).

(** Whatever a peer sends: the receiver takes a transfer for complete with the data [d] exactly if what arrived begins with an Ack
    frame, Data frames that carry [d], and an End frame. *)
Theorem C65_complete_exact r d : honest_io r -> Forall is_byte (arrived r) ->
  (fetch r = Accepted d Complete <-> Finished blk_d crc (arrived r) d).
Proof using All.
  intros H B. split.
  - unfold SfrModel.fetch. destruct (codec_read pframe pdec blk_d crc new_codec r) as [[o k'] r'] eqn:E. destruct o as [f|e|]; try discriminate.
    destruct f as [q| |dn|b| |e]; try discriminate.
    destruct (read_exact_frame blk_d crc crc32 new_codec _ _ _ _ eq_refl H B E) as [[w [Ew Ow]] [H' [_ B']]].
    destruct (pack_reader blk_d crc _ new_codec r') as [b f] eqn:Er. intros X. injection X as <- ->.
    exists w, (arrived r'). split; [auto|]. split; [exact Ow|]. apply (reader_sound blk_d crc crc32 _ new_codec r' b eq_refl H' B' Er).
  - intros [w [ws [A [F T]]]].
    destruct (read_frame_back blk_d crc crc32 new_codec r w Ack ws eq_refl H B A F) as [k' [r' [E [A' [H' _]]]]].
    unfold SfrModel.fetch. rewrite E. change (concat (segs r')) with (arrived r').
    rewrite (reader_back blk_d crc crc32 ws d T) with (k := new_codec); auto.
    + rewrite A'. rewrite A in B. apply Forall_app in B. apply B.
    + rewrite A'. lia.
Qed.

(** Whatever a peer sends and however it ends: the bytes handed over are those of Data frames that arrived behind the Ack, in order. *)
Theorem C65_handed_over r d f : honest_io r -> Forall is_byte (arrived r) -> fetch r = Accepted d f ->
  exists w ws bs rest, arrived r = w ++ concat ws ++ rest /\ Frame w Ack /\ Forall2 (fun x b => Frame x (Data b)) ws bs /\ d = concat bs.
Proof using All.
  intros H B. unfold SfrModel.fetch. destruct (codec_read pframe pdec blk_d crc new_codec r) as [[o k'] r'] eqn:E. destruct o as [g|e|]; try discriminate.
  destruct g as [q| |dn|b| |e]; try discriminate.
  destruct (read_exact_frame blk_d crc crc32 new_codec _ _ _ _ eq_refl H B E) as [[w [Ew Ow]] [H' [_ B']]].
  assert (G : forall fuel k r d f, k_max k = MAX_SYNC_PACK_FRAME_SIZE -> honest_io r -> Forall is_byte (arrived r) ->
    pack_reader blk_d crc fuel k r = (d, f) ->
    exists ws bs rest, arrived r = concat ws ++ rest /\ Forall2 (fun x b => Frame x (Data b)) ws bs /\ d = concat bs).
  { clear - crc32. intros fuel; induction fuel as [|fuel IH]; intros k r d f K H B; cbn [pack_reader].
    { intros X. injection X as <- _. exists [], [], (arrived r). split; [auto|]. split; [constructor|auto]. }
    destruct (codec_read pframe pdec blk_d crc k r) as [[o k'] r'] eqn:E.
    assert (D : forall d0 f0, (d0, f0) = (d, f) -> d0 = [] -> exists ws bs rest, arrived r = concat ws ++ rest /\
      Forall2 (fun x b => Frame x (Data b)) ws bs /\ d = concat bs).
    { intros d0 f0 X ->. injection X as <- _. exists [], [], (arrived r). split; [auto|]. split; [constructor|auto]. }
    destruct o as [g|e|]; [|intros X; eapply D; eauto|intros X; eapply D; eauto].
    destruct g as [q| |dn|b| |e]; try (intros X; eapply D; eauto; fail).
    destruct (read_exact_frame blk_d crc crc32 _ _ _ _ _ K H B E) as [[w [Ew Ow]] [H' [K' B']]].
    destruct (pack_reader blk_d crc fuel k' r') as [t f'] eqn:Er. intros X. injection X as <- _.
    destruct (IH _ _ _ _ K' H' B' Er) as [ws [bs [rest [A1 [A2 ->]]]]].
    exists (w :: ws), (b :: bs), rest. split; [rewrite Ew, A1; cbn [concat]; rewrite app_assoc; reflexivity|].
    split; [constructor; [exact Ow|exact A2]|reflexivity]. }
  destruct (pack_reader blk_d crc _ new_codec r') as [b g] eqn:Er. intros X. injection X as <- _.
  destruct (G _ new_codec _ _ _ eq_refl H' B' Er) as [ws [bs [rest [A1 [A2 ->]]]]].
  exists w, ws, bs, rest. split; [rewrite Ew, A1; reflexivity|]. auto.
Qed.
End E.

(* ---------- a concrete exchange ---------- *)
Definition ex_c (b : bytes) : bytes := b.
Definition ex_d (b : bytes) : option bytes := Some b.
Definition ex_crc (b : bytes) : N := fold_right N.add 0 b mod 2 ^ 32.
Definition ex_src : source := {| s_pieces := [[1; 2; 3]; [4]; [5; 6]]; s_ok := true |}.
Definition bytewise (b : bytes) : list bytes := map (fun x => [x]) b.
Theorem C65_example :
  (forall d, ex_crc d < 2 ^ 32) /\ (forall b, ex_d (ex_c b) = Some b) /\ pieces_ok ex_src /\
  (let w := serve ex_c ex_crc (Some ex_src) in
   let full := {| segs := bytewise w; fin := Closed |} in
   let cut := {| segs := bytewise (removelast w); fin := Closed |} in
   let stall := {| segs := [removelast w]; fin := Silent |} in
   length w = 144%nat /\ honest_io full /\ arrived full = w /\ Forall is_byte w /\
   fetch ex_d ex_crc full = Accepted [1; 2; 3; 4; 5; 6] Complete /\
   fetch ex_d ex_crc cut = Accepted [1; 2; 3; 4; 5; 6] Broken /\
   fetch ex_d ex_crc stall = Accepted [1; 2; 3; 4; 5; 6] Stalled) /\
  fetch ex_d ex_crc {| segs := [serve ex_c ex_crc None]; fin := Silent |} = Denied.
Proof.
  split; [intros d; apply N.mod_lt; discriminate|]. split; [reflexivity|].
  split; [repeat constructor; vm_compute; discriminate|]. split; [|vm_compute; reflexivity].
  cbv zeta. split; [vm_compute; reflexivity|]. split; [apply Forall_map, Forall_forall; discriminate|].
  split; [vm_compute; reflexivity|]. split.
  - apply Forall_forall. intros x Hx. assert (G : forallb (fun b => b <? 256) (serve ex_c ex_crc (Some ex_src)) = true) by (vm_compute; reflexivity).
    rewrite forallb_forall in G. apply N.ltb_lt, G, Hx.
  - vm_compute. auto.
Qed.
(** A set is read from digests in any order and repeated: a worker request has more than one encoding. *)
Theorem C65_request_encodings_refuted : exists b b' f, b <> b' /\ dec_frame wreq get_wreq b = Some f /\ dec_frame wreq get_wreq b' = Some f.
Proof.
  exists ([0; 0; 1; 32] ++ repeat 7 32 ++ [1; 0; 0; 0]), ([0; 0; 2; 32] ++ repeat 7 32 ++ [32] ++ repeat 7 32 ++ [1; 0; 0; 0]).
  eexists. split; [discriminate|]. split; vm_compute; reflexivity.
Qed.
