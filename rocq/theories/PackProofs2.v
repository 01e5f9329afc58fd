(* The pack refines the record log. *)
From Verif Require Import Util FileModel FileSpec FileProofs PackModel PackSpec PackProofs.

Lemma upto_nil {V} n (rs : list (nat * nat * V)) : (forall r, In r rs -> n < r_end r) -> upto n rs = [].
Proof.
  induction rs as [|r rs IH]; intros H; simpl; auto.
  destruct (Nat.leb_spec (r_end r) n) as [Hl|_]; [specialize (H r (or_introl eq_refl)); lia|].
  apply IH. intros; apply H; simpl; auto.
Qed.
Lemma tiles_bounds {V} a (rs : list (nat * nat * V)) b : tiles a rs b ->
  a <= b /\ (forall r, In r rs -> a <= r_start r /\ r_start r < r_end r /\ r_end r <= b).
Proof.
  revert a; induction rs as [|r rs IH]; simpl; intros a H; [subst; split; [auto|intros r []]|].
  destruct H as (A & B & T). destruct (IH _ T) as [C D]. split; [lia|].
  intros x [<-|Hx]; [lia|]. specialize (D x Hx). lia.
Qed.

Lemma plain_set_len_inv p n x p' : plain_step p (OSetLen n) x p' ->
  (p_ro p = false /\ x = RUnit /\ p' = with_bytes p (firstn n (p_bytes p) ++ repeat 0%N (n - length (p_bytes p))))
  \/ (p_ro p = true /\ x = RFail OsErr /\ p' = p).
Proof. intros H. inversion H; subst; auto. Qed.

Section P.
Context {V : Type}.
Variable C : codec V.
Variable rsz wsz : nat.
Hypothesis Hr : 0 < rsz.
Hypothesis Hw : 0 < wsz.
Hypothesis HC : codec_ok C.
Variable uidx version : N.
Hypothesis Hv : (version < 2 ^ 16)%N.
Variable comp : bool.

Definition H0 : header := mk_hdr version (guid C uidx) 1 comp.

Definition rec_in (c : bytes) (r : nat * nat * V) : Prop :=
  28 <= r_start r /\ r_start r < r_end r /\ r_end r <= length c /\
  rec_ok C comp (r_val r) (slice c (r_start r) (r_end r - r_start r)).

Record inv (k : pack) (L : plog V) : Prop := {
  i_wf : wf_df (k_df k);
  i_bytes : p_bytes (abs (k_df k)) = l_bytes L;
  i_more : p_more (abs (k_df k)) = [];
  i_ro : f_ro (k_df k) = l_ro L;
  i_failed : k_failed k = l_failed L;
  i_os : length (f_os (k_df k)) = l_os L;
  i_safe : f_safe (k_df k) = l_safe L;
  i_hdr : k_hdr k = H0;
  i_head : firstn 28 (l_bytes L) = header_bytes C H0;
  i_28 : 28 <= l_os L;
  i_recs : forall r, In r (l_recs L) -> rec_in (l_bytes L) r }.

Lemma inv_len k L : inv k L -> df_len (k_df k) = length (l_bytes L).
Proof. intros I. rewrite <- abs_len by apply I. now rewrite (i_bytes _ _ I). Qed.
Lemma more_end f : wf_df f -> p_more (abs f) = [] -> f_end f = length (f_os f).
Proof.
  intros H Hm. unfold abs in Hm; simpl in Hm. pose proof (wf_end _ H).
  assert (length (skipn (f_end f) (f_os f)) = 0) by (rewrite Hm; auto). rewrite skipn_length in *. lia.
Qed.
Lemma inv_os k L : inv k L -> l_bytes L = f_os (k_df k) ++ f_w (k_df k) /\ l_os L <= length (l_bytes L).
Proof.
  intros I. pose proof (more_end _ (i_wf _ _ I) (i_more _ _ I)) as He.
  rewrite <- (i_bytes _ _ I), <- (i_os _ _ I). unfold abs; simpl. rewrite He, firstn_all. split; auto.
  rewrite app_length. lia.
Qed.
Lemma inv_os_firstn k L : inv k L -> f_os (k_df k) = firstn (l_os L) (l_bytes L).
Proof. intros I. destruct (inv_os _ _ I) as [-> _]. rewrite <- (i_os _ _ I). symmetry. now apply firstn_cat. Qed.

Lemma rec_in_app c t r : rec_in c r -> rec_in (c ++ t) r.
Proof.
  intros (A & B & D & E). repeat split; auto; [rewrite app_length; lia|]. rewrite slice_app_l by lia. auto.
Qed.
Lemma rec_in_firstn c m r : rec_in c r -> r_end r <= m -> rec_in (firstn m c) r.
Proof.
  intros (A & B & D & E) Hm. repeat split; auto; [rewrite firstn_length; lia|]. rewrite slice_firstn by lia. auto.
Qed.

(* --- opening --- *)
Lemma open_existing os safe ro : 28 <= length os -> firstn 28 os = header_bytes C H0 -> safe <= length os ->
  exists k, pack_open C rsz wsz os safe uidx version comp ro = POk k /\ wf_df (k_df k) /\
    p_bytes (abs (k_df k)) = os /\ p_more (abs (k_df k)) = [] /\ f_ro (k_df k) = ro /\ k_failed k = false /\
    f_os (k_df k) = os /\ f_safe (k_df k) = safe /\ k_hdr k = H0.
Proof.
  intros Hl Hh Hs. unfold pack_open.
  destruct (open_ok rsz os safe ro Hs) as (f & -> & W & A & O & S).
  assert (Hend : f_end f = length os).
  { pose proof (more_end f W) as M. rewrite A, O in M. simpl in M. auto. }
  destruct (Nat.eqb_spec (f_end f) 0); [lia|]. rewrite seek_start.
  destruct (rd_ok rsz Hr DATA_HEADER_BYTES (set_pos f 0) (wf_set_pos _ _ W)) as (f1 & -> & W1 & A1 & O1 & S1).
  { cbn [f_pos set_pos]. change (df_len (set_pos f 0)) with (df_len f). rewrite <- abs_len, A by auto. simpl. unfold DATA_HEADER_BYTES; lia. }
  rewrite abs_set_pos, A in *. cbn [p_bytes at_pos f_pos set_pos p_more p_pos p_ro] in *.
  cbn [f_os f_safe set_pos] in O1, S1.
  change (slice os 0 DATA_HEADER_BYTES) with (firstn 28 os). rewrite Hh.
  rewrite (load_header_ok C HC uidx version comp Hv : load_header C uidx (header_bytes C H0) = POk H0).
  cbn [h_version h_app H0]. rewrite N.ltb_irrefl. cbn [negb N.eqb Pos.eqb].
  destruct (flush_ok f1 W1) as [W2 A2].
  eexists; split; [reflexivity|]. cbn [k_df k_failed k_hdr]. rewrite A2, A1. cbn [p_bytes p_more].
  assert (R1 : f_ro f1 = ro) by (change (p_ro (abs f1) = ro); rewrite A1; reflexivity).
  assert (Hf2 : f_ro (df_flush f1) = f_ro f1 /\ f_safe (df_flush f1) = f_safe f1) by (unfold df_flush; destruct (f_ro f1) eqn:?E; split; simpl; auto).
  destruct Hf2 as [F1 F2].
  repeat split; auto; try congruence; try apply W2.
  - unfold df_flush. destruct (f_ro f1) eqn:E; [congruence|]. unfold df_drain; cbn [f_os].
    assert (HW : f_w f1 = []).
    { assert (E1 : p_bytes (abs f1) = os) by (rewrite A1; reflexivity).
      assert (E2 : f_end f1 = length (f_os f1)) by (apply more_end; auto; rewrite A1; reflexivity).
      unfold abs in E1; simpl in E1. rewrite E2, firstn_all, O1, O in E1.
      apply (f_equal (@length N)) in E1. rewrite app_length in E1. destruct (f_w f1); auto. simpl in E1; lia. }
    rewrite HW, app_nil_r. congruence.
Qed.

Lemma open_fresh : exists k, pack_open C rsz wsz [] 0 uidx version comp false = POk k /\
  inv k (mk_log (header_bytes C H0) [] 28 0 false false).
Proof.
  unfold pack_open. destruct (open_ok rsz [] 0 false ltac:(auto)) as (f & -> & W & A & O & S).
  assert (Hend : f_end f = 0).
  { pose proof (more_end f W) as M. rewrite A, O in M. simpl in M. auto. }
  rewrite Hend. cbn [Nat.eqb].
  assert (Rf : f_ro f = false) by (change (p_ro (abs f) = false); rewrite A; reflexivity).
  destruct (write_all_ok wsz (header_bytes C H0) f Hw W Rf) as (f1 & E1 & W1 & R1 & A1 & S1 & _).
  fold H0. rewrite E1. eexists; split; [reflexivity|].
  destruct (flush_ok f1 W1) as [W2 A2]. rewrite A in A1. cbn [with_bytes p_bytes p_more p_pos p_ro app] in A1.
  constructor; cbn [k_df k_failed k_hdr l_bytes l_recs l_os l_safe l_ro l_failed]; auto.
  - now rewrite A2, A1.
  - now rewrite A2, A1.
  - unfold df_flush. now rewrite R1.
  - rewrite <- (header_bytes_length C H0).
    assert (E : p_bytes (abs (df_flush f1)) = header_bytes C H0) by (rewrite A2, A1; reflexivity).
    assert (M : f_end (df_flush f1) = length (f_os (df_flush f1))) by (apply more_end; auto; rewrite A2, A1; reflexivity).
    assert (Wn : f_w (df_flush f1) = []) by (unfold df_flush; rewrite R1; reflexivity).
    unfold abs in E; cbn [p_bytes] in E. rewrite M, firstn_all, Wn, app_nil_r in E. now rewrite E.
  - unfold df_flush. rewrite R1. cbn [df_drain f_safe]. congruence.
  - intros r [].
Qed.

(* --- iteration --- *)
Lemma last_end_cons (a : nat) (r : nat * nat * V) rs : last_end a (r :: rs) = last_end (r_end r) rs.
Proof. reflexivity. Qed.

Lemma slice_split c a m n : a <= m -> m <= n -> slice c a (n - a) = slice c a (m - a) ++ slice c m (n - m).
Proof.
  intros H1 H2. replace m with (a + (m - a)) at 2 by lia. rewrite slice_app_cat. f_equal. lia.
Qed.

Lemma iter_tiles c rs : forall a n fuel, tiles a rs (length c) -> (forall r, In r rs -> rec_in c r) ->
  a <= n <= length c -> n - a < fuel ->
  exists e, iter_all C fuel comp (slice c a (n - a)) = (map r_val (upto n rs), e) /\
            (e = None <-> n < last_end a (upto n rs) + 4).
Proof.
  induction rs as [|r rs IH]; intros a n fuel T HR Hn Hf.
  - simpl in T. assert (n = a) by lia. subst n. rewrite Nat.sub_diag, slice_0. destruct fuel; [lia|].
    exists None. split; [reflexivity|]. unfold last_end, upto; simpl. split; intros; auto. lia.
  - destruct T as (T1 & T2 & T3). destruct (HR r (or_introl eq_refl)) as (R1 & R2 & R3 & R4). rewrite T1 in *.
    unfold upto. cbn [filter]. fold (upto n rs). destruct (Nat.leb_spec (r_end r) n) as [Hle|Hgt].
    + rewrite (slice_split c a (r_end r) n) by lia.
      destruct fuel as [|fuel]; [lia|]. cbn [iter_all].
      rewrite (iter_next_frame C HC comp _ _ _ R4).
      destruct (IH (r_end r) n fuel T3) as (e & He & Hee); auto; try lia. { intros; apply HR; simpl; auto. }
      rewrite He. exists e. split; [reflexivity|]. now rewrite last_end_cons.
    + rewrite upto_nil.
      2: { intros x Hx. destruct (tiles_bounds _ _ _ T3) as [_ B]. specialize (B x Hx). lia. }
      destruct fuel as [|fuel]; [lia|]. cbn [iter_all].
      assert (Hs : slice c a (n - a) = firstn (n - a) (slice c a (r_end r - a))).
      { unfold slice. rewrite firstn_firstn. f_equal. lia. }
      assert (Hsl : length (slice c a (r_end r - a)) = r_end r - a) by (apply slice_full; lia).
      rewrite Hs, (iter_next_torn C comp _ _ _ R4) by lia.
      destruct (Nat.ltb_spec (n - a) 4).
      * exists None. split; [reflexivity|]. unfold last_end; simpl. split; intros; auto. lia.
      * exists (Some (EIo Eof)). split; [reflexivity|]. unfold last_end; simpl. split; [discriminate|lia].
Qed.

Lemma iter_good c good : forall a b n fuel, tiles a good b -> (forall r, In r good -> rec_in c r) ->
  b <= n <= length c -> n - a < fuel ->
  exists more e, iter_all C fuel comp (slice c a (n - a)) = (map r_val good ++ more, e).
Proof.
  induction good as [|r rs IH]; intros a b n fuel T HR Hn Hf.
  - destruct (iter_all C fuel comp (slice c a (n - a))) as [vs e]. exists vs, e. reflexivity.
  - destruct T as (T1 & T2 & T3). destruct (HR r (or_introl eq_refl)) as (R1 & R2 & R3 & R4). rewrite T1 in *.
    destruct (tiles_bounds _ _ _ T3) as [B _].
    rewrite (slice_split c a (r_end r) n) by lia.
    destruct fuel as [|fuel]; [lia|]. cbn [iter_all].
    rewrite (iter_next_frame C HC comp _ _ _ R4).
    destruct (IH (r_end r) b n fuel T3) as (more & e & He); auto; try lia. { intros; apply HR; simpl; auto. }
    rewrite He. exists more, e. reflexivity.
Qed.

Lemma iter_os os : 28 <= length os -> firstn 28 os = header_bytes C H0 ->
  pack_iter C uidx os = POk (iter_all C (length os) comp (skipn 28 os)).
Proof.
  intros Hl Hh. unfold pack_iter. destruct (Nat.ltb_spec (length os) DATA_HEADER_BYTES); [unfold DATA_HEADER_BYTES in *; lia|].
  change DATA_HEADER_BYTES with 28. rewrite Hh.
  rewrite (load_header_ok C HC uidx version comp Hv : load_header C uidx (header_bytes C H0) = POk H0). reflexivity.
Qed.

Lemma tiles_dec (a : nat) (rs : list (nat * nat * V)) b : tiles a rs b \/ ~ tiles a rs b.
Proof.
  revert a; induction rs as [|r rs IH]; intros a; simpl; [lia|].
  destruct (IH (r_end r)); destruct (Nat.eq_dec (r_start r) a); destruct (lt_dec a (r_end r)); tauto.
Qed.

Definition ser (v : V) : Prop := enc C v <> None.

Lemma inv_move k L f : inv k L -> wf_df f -> (exists p, abs f = at_pos (abs (k_df k)) p) ->
  f_os f = f_os (k_df k) -> f_safe f = f_safe (k_df k) -> inv (on_df k f) L.
Proof.
  intros I W (p & A) O S. constructor; cbn [on_df k_df k_failed k_hdr]; try apply I; auto.
  - rewrite A. apply I.
  - rewrite A. apply I.
  - change (p_ro (abs f) = l_ro L). rewrite A. apply I.
  - rewrite O. apply I.
  - rewrite S. apply I.
Qed.

Lemma step_append v k L : inv k L -> pop_ok C comp (OAppend v) ->
  exists L', log_step ser L (OAppend v) (fst (pack_step C rsz wsz uidx version (OAppend v) k)) L' /\
    inv (snd (pack_step C rsz wsz uidx version (OAppend v) k)) L'.
Proof.
  intros I Hok. simpl. unfold pack_append. rewrite (i_ro _ _ I), (i_failed _ _ I).
  destruct (l_ro L) eqn:Ro; [exists L; split; auto; now apply LAppendRo|].
  destruct (l_failed L) eqn:Fa; [exists L; split; auto; now apply LAppendFailed|].
  rewrite (i_hdr _ _ I). cbn [H0 h_comp].
  destruct (enc C v) as [b|] eqn:Ee.
  - destruct Hok as [Hfit|Hn]; [|congruence]. destruct (fits_rec C HC comp v Hfit) as (fr & Hrec).
    assert (R : f_ro (k_df k) = false) by (rewrite (i_ro _ _ I); auto).
    destruct (write_value_ok C wsz Hw comp v fr (k_df k) (i_wf _ _ I) R Hrec) as (f & -> & W & Rf & A & S & O).
    cbn [fst snd xof]. unfold pack_len. rewrite (inv_len _ _ I).
    assert (Hob : length (f_os (k_df k)) <= length (f_os f)).
    { rewrite <- O, firstn_length. lia. }
    assert (Hab : p_bytes (abs f) = l_bytes L ++ fr) by (rewrite A, (i_bytes _ _ I); reflexivity).
    eexists; split.
    + apply (LAppend ser L v fr (length (f_os f))); auto.
      * unfold ser; congruence.
      * apply rec_ok_len in Hrec. destruct fr; [simpl in Hrec; lia|discriminate].
      * rewrite <- (i_os _ _ I). auto.
      * rewrite <- Hab. unfold abs; simpl. rewrite (wf_rw _ W Rf), firstn_all, app_length. lia.
    + constructor; cbn [on_df k_df k_failed k_hdr relog l_bytes l_recs l_os l_safe l_ro l_failed]; auto; try apply I.
      * rewrite A. apply I.
      * congruence.
      * rewrite S. apply I.
      * rewrite firstn_app. replace (28 - length (l_bytes L)) with 0 by (pose proof (i_28 _ _ I); destruct (inv_os _ _ I); lia).
        rewrite firstn_O, app_nil_r. apply I.
      * pose proof (i_28 _ _ I). rewrite (i_os _ _ I) in Hob. lia.
      * intros r Hin. apply in_app_iff in Hin. destruct Hin as [Hin|[<-|[]]].
        -- apply rec_in_app. now apply I.
        -- unfold rec_in, r_start, r_end, r_val; cbn [fst snd]. pose proof (rec_ok_len _ _ _ _ Hrec).
           rewrite app_length. pose proof (i_28 _ _ I). destruct (inv_os _ _ I). repeat split; try lia.
           replace (length (l_bytes L) + length fr - length (l_bytes L)) with (length fr) by lia.
           rewrite slice_app_r, Nat.sub_diag, slice_all by lia. auto.
  - unfold write_value, payload. rewrite Ee. cbn [fst snd xof].
    eexists; split.
    + apply LAppendBad; auto; unfold ser; congruence.
    + constructor; cbn [k_df k_failed k_hdr l_bytes l_recs l_os l_safe l_ro l_failed]; try apply I; auto.
Qed.

Lemma find_start p (rs : list (nat * nat * V)) :
  (exists q v, In (p, q, v) rs) \/ (forall r, In r rs -> r_start r <> p).
Proof.
  induction rs as [|[[a b] v] rs IH]; [right; intros r []|].
  destruct (Nat.eq_dec a p) as [->|Hn]; [left; exists b, v; simpl; auto|].
  destruct IH as [(q & w & H)|H]; [left; exists q, w; simpl; auto|].
  right. intros r [<-|Hr']; auto.
Qed.

Lemma read_rec k L p q v : inv k L -> In (p, q, v) (l_recs L) ->
  exists b f', read_checked C rsz p (k_df k) = (POk b, f') /\ unpayload C comp b = POk v /\ length b + 8 = q - p.
Proof.
  intros I Hin. destruct (i_recs _ _ I _ Hin) as (A & B & D & (b & E1 & E2 & E3 & E4)).
  unfold r_start, r_end, r_val in *; cbn [fst snd] in *.
  assert (Hl : q - p = length b + 8).
  { rewrite <- (frame_length C b), <- E4, slice_full by lia. lia. }
  rewrite Hl in E4. rewrite <- (i_bytes _ _ I) in E4.
  destruct (read_checked_frame C HC rsz Hr p b (k_df k) (i_wf _ _ I) E2 E4) as (f' & ->). eauto 10.
Qed.

Lemma step_fetch p k L : inv k L ->
  exists L', log_step ser L (OFetch p) (fst (pack_step C rsz wsz uidx version (OFetch p) k)) L' /\
    inv (snd (pack_step C rsz wsz uidx version (OFetch p) k)) L'.
Proof.
  intros I. simpl. unfold pack_fetch.
  destruct (read_checked_any C rsz Hr p (k_df k) (i_wf _ _ I)) as (r & f' & E & W & A & O & S).
  pose proof (inv_move k L f' I W A O S) as I'.
  exists L. destruct (find_start p (l_recs L)) as [(q & v & Hin)|Hno].
  - destruct (read_rec k L p q v I Hin) as (b & f1 & E1 & E2 & E3). rewrite E1 in E. injection E as E0 Ef. subst f1.
    rewrite E1. rewrite (i_hdr _ _ I). cbn [H0 h_comp]. rewrite E2. cbn [fst snd xof]. split; auto. eapply LFetch; eauto.
  - rewrite E. destruct r; cbn [fst snd]; split; auto; now apply LFetchOther.
Qed.

Lemma step_size p k L : inv k L ->
  exists L', log_step ser L (OSize p) (fst (pack_step C rsz wsz uidx version (OSize p) k)) L' /\
    inv (snd (pack_step C rsz wsz uidx version (OSize p) k)) L'.
Proof.
  intros I. simpl. unfold pack_record_size.
  destruct (read_checked_any C rsz Hr p (k_df k) (i_wf _ _ I)) as (r & f' & E & W & A & O & S).
  pose proof (inv_move k L f' I W A O S) as I'.
  exists L. destruct (find_start p (l_recs L)) as [(q & v & Hin)|Hno].
  - destruct (read_rec k L p q v I Hin) as (b & f1 & E1 & E2 & E3). rewrite E1 in E. injection E as E0 Ef. subst f1.
    rewrite E1. cbn [fst snd xof]. split; auto. replace (N.of_nat (length b) + 8)%N with (N.of_nat (q - p)) by lia. eapply LSize; eauto.
  - rewrite E. destruct r; cbn [fst snd]; split; auto; now apply LSizeOther.
Qed.

Lemma step_bytes a b k L : inv k L ->
  exists L', log_step ser L (OBytes a b) (fst (pack_step C rsz wsz uidx version (OBytes a b) k)) L' /\
    inv (snd (pack_step C rsz wsz uidx version (OBytes a b) k)) L'.
Proof.
  intros I. simpl. unfold pack_read_bytes, pack_len. rewrite (inv_len _ _ I). exists L.
  destruct (Nat.ltb_spec b a); [cbn [orb fst snd xof]; split; auto; now apply LBytesRange; left|].
  destruct (Nat.ltb_spec (length (l_bytes L)) b); [cbn [orb fst snd xof]; split; auto; now apply LBytesRange; right|].
  cbn [orb]. rewrite seek_start.
  destruct (rd_ok rsz Hr (b - a) (set_pos (k_df k) a) (wf_set_pos _ _ (i_wf _ _ I))) as (f1 & -> & W1 & A1 & O1 & S1).
  { cbn [f_pos set_pos]. change (df_len (set_pos (k_df k) a)) with (df_len (k_df k)). rewrite (inv_len _ _ I). lia. }
  cbn [fst snd xof]. split.
  - rewrite abs_set_pos. cbn [at_pos p_bytes f_pos set_pos]. rewrite (i_bytes _ _ I). now apply LBytes.
  - apply inv_move; auto. rewrite A1, abs_set_pos, at_pos_twice. eauto.
Qed.

Lemma inv_flush k L : inv k L -> wf_df (df_flush (k_df k)) /\ abs (df_flush (k_df k)) = abs (k_df k) /\
  f_os (df_flush (k_df k)) = l_bytes L /\ f_safe (df_flush (k_df k)) = l_safe L /\ f_ro (df_flush (k_df k)) = l_ro L.
Proof.
  intros I. destruct (flush_ok _ (i_wf _ _ I)) as [W A]. destruct (inv_os _ _ I) as [Hb _].
  unfold df_flush in *. rewrite (i_ro _ _ I) in *. destruct (l_ro L) eqn:E.
  - rewrite (wf_w _ (i_wf _ _ I)), app_nil_r in Hb by (rewrite (i_ro _ _ I); auto).
    repeat split; auto; try apply I; try apply W. rewrite (i_ro _ _ I); auto.
  - cbn [df_drain f_os f_safe f_ro]. repeat split; auto; try apply W; try apply I. rewrite (i_ro _ _ I); auto.
Qed.

Lemma step_flush k L : inv k L ->
  exists L', log_step ser L OFlushP (fst (pack_step C rsz wsz uidx version OFlushP k)) L' /\
    inv (snd (pack_step C rsz wsz uidx version OFlushP k)) L'.
Proof.
  intros I. simpl. eexists; split; [apply LFlush|]. destruct (inv_flush _ _ I) as (W & A & O & S & R). destruct (inv_os _ _ I).
  pose proof (i_28 _ _ I).
  constructor; cbn [pack_flush on_df k_df k_failed k_hdr relog l_bytes l_recs l_os l_safe l_ro l_failed]; auto; try apply I; rewrite ?A, ?O; try apply I; try lia; auto.
Qed.

Lemma step_commit k L : inv k L ->
  exists L', log_step ser L OCommit (fst (pack_step C rsz wsz uidx version OCommit k)) L' /\
    inv (snd (pack_step C rsz wsz uidx version OCommit k)) L'.
Proof.
  intros I. simpl. unfold pack_commit. rewrite (i_ro _ _ I), (i_failed _ _ I).
  destruct (l_ro L) eqn:Ro; [exists L; split; auto; now apply LCommitRo|].
  destruct (l_failed L) eqn:Fa; [exists L; split; auto; now apply LCommitFailed|].
  cbn [fst snd xof]. eexists; split; [now apply LCommit|].
  destruct (inv_flush _ _ I) as (W & A & O & S & R). destruct (inv_os _ _ I).
  destruct (sync_ok _ W) as [W' A'].
  assert (E : f_os (df_sync (df_flush (k_df k))) = l_bytes L /\ f_safe (df_sync (df_flush (k_df k))) = length (l_bytes L) /\
              f_ro (df_sync (df_flush (k_df k))) = l_ro L).
  { unfold df_sync. rewrite R, Ro. cbn [f_os f_safe f_ro]. rewrite O. repeat split; congruence. }
  destruct E as (E1 & E2 & E3). pose proof (i_28 _ _ I).
  constructor; cbn [on_df k_df k_failed k_hdr relog l_bytes l_recs l_os l_safe l_ro l_failed]; auto; try apply I;
    rewrite ?A', ?A, ?E1; try apply I; try lia; auto.
Qed.

Lemma step_truncate n k L : inv k L -> 28 <= n ->
  exists L', log_step ser L (OTruncate n) (fst (pack_step C rsz wsz uidx version (OTruncate n) k)) L' /\
    inv (snd (pack_step C rsz wsz uidx version (OTruncate n) k)) L'.
Proof.
  intros I Hn. simpl. unfold pack_truncate.
  destruct (set_len_ok rsz n (k_df k) (i_wf _ _ I)) as (x & f & E & W & P).
  assert (Hsafe : l_ro L = false -> length (f_os f) = n /\ f_safe f = Nat.min (l_safe L) n).
  { intros Ro. pose proof (i_ro _ _ I) as R. rewrite Ro in R. unfold df_set_len in E. rewrite R in E. cbn [negb andb] in E.
    set (g := if negb match f_w (k_df k) with [] => true | _ => false end then df_drain (k_df k) else k_df k) in *.
    assert (Hg : f_ro g = false /\ f_safe g = l_safe L).
    { unfold g. destruct (f_w (k_df k)); cbn [negb]; [split; auto; apply I|]. cbn [df_drain f_ro f_safe]. split; auto; apply I. }
    destruct Hg as [G1 G2]. clearbody g. rewrite G1 in E. cbn [f_rs f_r f_end f_os] in E.
    assert (Hos : f_os f = os_set_len (f_os g) n /\ f_safe f = Nat.min (f_safe g) n).
    { destruct (n <? f_rs g + length (f_r g)); [|injection E as _ <-; split; reflexivity].
      destruct (0 <? n); [|injection E as _ <-; split; reflexivity].
      destruct (os_read _ _ _); injection E as _ <-; split; reflexivity. }
    destruct Hos as [H1 H2]. rewrite H1, H2, G2. split; auto. apply firstn_set_len. }
  rewrite E. pose proof (i_ro _ _ I) as R.
  apply plain_set_len_inv in P. destruct P as [(Hro & Hx & Hp1)|(Hro & Hx & Hp1)]; cbn [abs p_ro] in Hro.
  - assert (Ro : l_ro L = false) by congruence. destruct (Hsafe Ro) as [S1 S2].
    destruct x as [[]|e]; [|discriminate Hx]. cbn [fst snd xof].
    rewrite (i_bytes _ _ I) in Hp1.
    assert (Hb : p_bytes (abs f) = firstn n (l_bytes L) ++ repeat 0%N (n - length (l_bytes L))) by (rewrite Hp1; reflexivity).
    assert (Hm : p_more (abs f) = []) by (rewrite Hp1; cbn [with_bytes p_more]; apply I).
    assert (Hro2 : f_ro f = l_ro L) by (change (p_ro (abs f) = l_ro L); rewrite Hp1; cbn [with_bytes p_ro]; exact R).
    eexists; split; [now apply LTruncate|].
    constructor; cbn [on_df k_df k_failed k_hdr relog l_bytes l_recs l_os l_safe l_ro l_failed]; auto; try apply I.
    + pose proof (i_28 _ _ I). destruct (inv_os _ _ I).
      rewrite firstn_app, firstn_firstn. replace (Nat.min 28 n) with 28 by lia.
      replace (28 - length (firstn n (l_bytes L))) with 0 by (rewrite firstn_length; lia).
      rewrite firstn_O, app_nil_r. apply I.
    + intros r Hin. unfold upto in Hin. apply filter_In in Hin. destruct Hin as [Hin Hle].
      apply rec_in_app. apply rec_in_firstn; [now apply I|]. now apply Nat.leb_le in Hle.
  - destruct x as [[]|e]; [discriminate Hx|]. injection Hx as ->. cbn [fst snd xof].
    exists L. split; [apply LTruncateRo; congruence|].
    assert (f = k_df k).
    { unfold df_set_len in E. rewrite Hro in E. cbn [negb andb] in E. rewrite Hro in E. congruence. }
    subst f. destruct k; exact I.
Qed.

Lemma step_iter k L : inv k L ->
  exists L', log_step ser L OIter (fst (pack_step C rsz wsz uidx version OIter k)) L' /\
    inv (snd (pack_step C rsz wsz uidx version OIter k)) L'.
Proof.
  intros I. simpl. exists L. split; auto. pose proof (i_28 _ _ I) as H28. destruct (inv_os _ _ I) as [Hb Hle].
  pose proof (inv_os_firstn _ _ I) as Hos.
  assert (Hsl : skipn 28 (f_os (k_df k)) = slice (l_bytes L) 28 (l_os L - 28)).
  { rewrite Hos. unfold slice. apply skipn_firstn_comm. }
  rewrite iter_os.
  2: rewrite (i_os _ _ I); lia.
  2: rewrite Hos, firstn_firstn; replace (Nat.min 28 (l_os L)) with 28 by lia; apply I.
  rewrite Hsl, (i_os _ _ I). cbn [xof].
  destruct (tiles_dec DATA_HEADER_BYTES (l_recs L) (length (l_bytes L))) as [T|T].
  - destruct (iter_tiles (l_bytes L) (l_recs L) 28 (l_os L) (l_os L) T) as (e & -> & He); [apply I|lia|lia|].
    now apply LIter.
  - destruct (iter_all C (l_os L) comp (slice (l_bytes L) 28 (l_os L - 28))) as [vs e] eqn:E.
    apply LIterGap; auto. intros good rest b Hg Tg Hble.
    destruct (iter_good (l_bytes L) good 28 b (l_os L) (l_os L) Tg) as (more & e' & E').
    + intros r Hin. apply I. rewrite Hg. apply in_app_iff. auto.
    + lia.
    + lia.
    + rewrite E' in E. injection E as <- _. eauto.
Qed.

Lemma drop_ok k L : inv k L -> f_os (pack_drop k) = l_bytes L /\
  f_safe (pack_drop k) = (if l_ro L then l_safe L else length (l_bytes L)).
Proof.
  intros I. unfold pack_drop, df_drop.
  destruct (inv_flush _ _ I) as (W & A & O & S & R). rewrite (i_ro _ _ I).
  destruct (l_ro L) eqn:Ro.
  - unfold df_sync. rewrite R. auto.
  - destruct (step_commit k L I) as (L' & P & I'). simpl in P, I'.
    assert (Hl : l_bytes L' = l_bytes L /\ l_ro L' = false).
    { inversion P; subst; auto. all: cbn [relog l_bytes l_ro]; auto. }
    destruct Hl as [Hl1 Hl2].
    assert (Ec : pack_commit k = (fst (pack_commit k), snd (pack_commit k))) by apply surjective_pairing.
    rewrite Ec in I'. cbn [snd] in I'.
    destruct (inv_flush _ _ I') as (W' & A' & O' & S' & R'). unfold df_sync. rewrite R', Hl2. cbn [f_os f_safe].
    rewrite O', Hl1. auto.
Qed.

Lemma inv_open os safe ro rs k : 28 <= length os -> firstn 28 os = header_bytes C H0 -> safe <= length os ->
  (forall r, In r rs -> rec_in os r) ->
  pack_open C rsz wsz os safe uidx version comp ro = POk k -> inv k (mk_log os rs (length os) safe ro false).
Proof.
  intros A B D E F. destruct (open_existing os safe ro A B D) as (k' & F' & G). rewrite F in F'. injection F' as <-.
  destruct G as (G1 & G2 & G3 & G4 & G5 & G6 & G7 & G8).
  constructor; cbn [l_bytes l_recs l_os l_safe l_ro l_failed]; auto. now rewrite G6.
Qed.

Lemma step_reopen ro k L : inv k L ->
  exists L', log_step ser L (OReopenP ro) (fst (pack_step C rsz wsz uidx version (OReopenP ro) k)) L' /\
    inv (snd (pack_step C rsz wsz uidx version (OReopenP ro) k)) L'.
Proof.
  intros I. simpl. destruct (drop_ok k L I) as [O S]. rewrite O, S, (i_hdr _ _ I). cbn [H0 h_comp].
  pose proof (i_28 _ _ I). destruct (inv_os _ _ I) as [_ Hle].
  set (safe := if l_ro L then l_safe L else length (l_bytes L)).
  assert (Hs : safe <= length (l_bytes L)).
  { unfold safe. destruct (l_ro L); auto. rewrite <- (i_safe _ _ I). pose proof (wf_safe _ (i_wf _ _ I)). rewrite (i_os _ _ I) in *. lia. }
  destruct (open_existing (l_bytes L) safe ro) as (k' & E & _); [lia|apply I|auto|].
  rewrite E. cbn [fst snd]. eexists; split; [apply LReopen|].
  eapply inv_open; eauto; try lia; apply I.
Qed.

Lemma step_crash n k L : inv k L -> 28 <= n ->
  exists L', log_step ser L (OCrash n) (fst (pack_step C rsz wsz uidx version (OCrash n) k)) L' /\
    inv (snd (pack_step C rsz wsz uidx version (OCrash n) k)) L'.
Proof.
  intros I Hn. simpl. rewrite (i_hdr _ _ I), (i_safe _ _ I), (i_ro _ _ I). cbn [H0 h_comp].
  pose proof (i_28 _ _ I). destruct (inv_os _ _ I) as [_ Hle].
  assert (Hsf : l_safe L <= l_os L) by (rewrite <- (i_safe _ _ I), <- (i_os _ _ I); apply (wf_safe _ (i_wf _ _ I))).
  set (m := Nat.min (Nat.max (l_safe L) n) (l_os L)).
  assert (Hos : firstn (Nat.max (l_safe L) n) (f_os (k_df k)) = firstn m (l_bytes L)).
  { rewrite (inv_os_firstn _ _ I), firstn_firstn. reflexivity. }
  rewrite Hos.
  assert (Hm : length (firstn m (l_bytes L)) = m) by (rewrite firstn_length; unfold m; lia).
  rewrite Hm. replace (Nat.min (l_safe L) m) with (l_safe L) by (unfold m; lia).
  assert (Hh : firstn 28 (firstn m (l_bytes L)) = header_bytes C H0).
  { rewrite firstn_firstn. replace (Nat.min 28 m) with 28 by (unfold m; lia). apply I. }
  destruct (open_existing (firstn m (l_bytes L)) (l_safe L) (l_ro L)) as (k' & E & _); auto.
  1,2: rewrite Hm; unfold m; lia.
  rewrite E. cbn [fst snd]. eexists; split; [apply (LCrash ser L n m); unfold m; lia|].
  rewrite <- Hm at 3. eapply inv_open; eauto; rewrite ?Hm; try (unfold m; lia).
  intros r Hin. unfold upto in Hin. apply filter_In in Hin. destruct Hin as [Hin Hl].
  apply rec_in_firstn; [now apply I|]. now apply Nat.leb_le in Hl.
Qed.

Lemma pack_step_ok o k L : inv k L -> pop_ok C comp o ->
  exists L', log_step ser L o (fst (pack_step C rsz wsz uidx version o k)) L' /\
    inv (snd (pack_step C rsz wsz uidx version o k)) L'.
Proof.
  intros I Hok. destruct o.
  - now apply step_append.
  - now apply step_fetch.
  - now apply step_size.
  - now apply step_bytes.
  - now apply step_flush.
  - now apply step_commit.
  - now apply step_truncate.
  - exists L. simpl. split; auto. unfold pack_len. rewrite (inv_len _ _ I). apply LLen.
  - now apply step_iter.
  - now apply step_reopen.
  - now apply step_crash.
Qed.

Lemma pack_run_ok ops : forall k L, inv k L -> Forall (pop_ok C comp) ops ->
  exists L', log_run ser L ops (fst (pack_run C rsz wsz uidx version ops k)) L' /\
    inv (snd (pack_run C rsz wsz uidx version ops k)) L'.
Proof.
  induction ops as [|o ops IH]; intros k L I Hok; [exists L; split; [constructor|auto]|].
  inversion Hok as [|? ? Ho Hops]; subst. cbn [pack_run].
  destruct (pack_step_ok o k L I Ho) as (L1 & P & I1).
  destruct (pack_step C rsz wsz uidx version o k) as [x k1]. cbn [fst snd] in *.
  destruct (IH k1 L1 I1 Hops) as (L2 & P2 & I2).
  destruct (pack_run C rsz wsz uidx version ops k1) as [xs k2]. cbn [fst snd] in *.
  exists L2. split; auto. econstructor; eauto.
Qed.
End P.
