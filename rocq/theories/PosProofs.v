(* The position index refines the list of PosSpec.v. *)
From Verif Require Import Util FileModel FileSpec FileProofs PackModel PackProofs PackProofs2 PosModel PosSpec.

Lemma no_more_end f : wf_df f -> p_more (abs f) = [] -> f_end f = length (f_os f).
Proof.
  intros H Hm. unfold abs in Hm; simpl in Hm. pose proof (wf_end _ H).
  assert (length (skipn (f_end f) (f_os f)) = 0) by (rewrite Hm; auto). rewrite skipn_length in *. lia.
Qed.
Lemma bytes_os_w f : wf_df f -> p_more (abs f) = [] -> p_bytes (abs f) = f_os f ++ f_w f.
Proof. intros H Hm. unfold abs; cbn [p_bytes]. now rewrite (no_more_end f H Hm), firstn_all. Qed.

Lemma set_len_full rsz n f : wf_df f -> f_ro f = false ->
  exists f', df_set_len rsz n f = (FOk tt, f') /\ wf_df f' /\
    abs f' = with_bytes (abs f) (firstn n (p_bytes (abs f)) ++ repeat 0%N (n - length (p_bytes (abs f)))) /\
    f_safe f' = Nat.min (f_safe f) n /\ length (f_os f') = n.
Proof.
  intros W R. destruct (set_len_ok rsz n f W) as (x & f' & E & W' & S).
  exists f'. assert (Hx : x = FOk tt /\ f_safe f' = Nat.min (f_safe f) n /\ length (f_os f') = n).
  { revert E. unfold df_set_len. set (g := if negb (f_ro f) && negb (match f_w f with [] => true | _ => false end) then df_drain f else f).
    assert (G : f_ro g = false /\ f_safe g = f_safe f) by (unfold g; destruct (_ && _); simpl; auto).
    destruct G as [G1 G2]. clearbody g. rewrite G1, G2. cbn [f_rs f_r f_end f_os].
    destruct (n <? _).
    - destruct (Nat.ltb_spec 0 n).
      + rewrite os_read_ok by (rewrite firstn_set_len; destruct (Nat.ltb_spec n rsz); lia).
        intros E; injection E as <- <-. cbn [set_rbuf f_safe f_os]. rewrite firstn_set_len. auto.
      + intros E; injection E as <- <-. cbn [set_rbuf f_safe f_os]. rewrite firstn_set_len. auto.
    - intros E; injection E as <- <-. cbn [set_rbuf f_safe f_os]. rewrite firstn_set_len. auto. }
  destruct Hx as (-> & Hs & Ho). split; auto. split; auto.
  assert (A : abs f' = with_bytes (abs f) (firstn n (p_bytes (abs f)) ++ repeat 0%N (n - length (p_bytes (abs f))))).
  { apply plain_set_len_inv in S. destruct S as [(_ & _ & S)|(_ & S & _)]; [exact S|discriminate]. }
  auto.
Qed.
Lemma set_len_ro rsz n f : wf_df f -> f_ro f = true -> df_set_len rsz n f = (FErr OsErr, f).
Proof. intros W R. unfold df_set_len. rewrite R. cbn [negb andb]. now rewrite R. Qed.

(* a write leaves the file alone or puts at least everything written before into it *)
Lemma write_os wsz bs f k f' : wf_df f -> f_ro f = false -> df_write wsz bs f = (FOk k, f') ->
  f_os f' = f_os f \/ df_len f <= length (f_os f').
Proof.
  intros W R E. pose proof (wf_rw _ W R) as He. unfold df_write in E. rewrite R in E.
  set (g := if wsz <=? length (f_w f) then df_drain f else f) in E.
  assert (G : df_len g = df_len f /\ (f_os g = f_os f \/ df_len f <= length (f_os g)) /\ f_end g = length (f_os g)).
  { unfold g. destruct (wsz <=? length (f_w f)); [|auto]. unfold df_drain, df_len; cbn.
    rewrite app_length. split; [lia|]. split; [right; lia|lia]. }
  destruct G as (G1 & G2 & G3). clearbody g. destruct (length bs <? wsz - length (f_w g)); injection E as <- <-.
  - cbn. auto.
  - right. unfold df_drain, push_w; cbn. rewrite !app_length. unfold df_len in *. lia.
Qed.
Lemma write_all_loop_os wsz fuel : forall bs f f', 0 < wsz -> wf_df f -> f_ro f = false -> length bs <= fuel ->
  df_write_all_loop wsz fuel bs f = (FOk tt, f') -> f_os f' = f_os f \/ df_len f <= length (f_os f').
Proof.
  induction fuel as [|fuel IH]; intros bs f f' Hw W R Hl E.
  - destruct bs; [|simpl in Hl; lia]. cbn in E. injection E as <-. auto.
  - destruct bs as [|b bs0]; [cbn in E; injection E as <-; auto|]. cbn [df_write_all_loop] in E. set (bs := b :: bs0) in *.
    destruct (write_ok wsz bs f Hw W R) as (k & f1 & E1 & W1 & R1 & Hk & Hk0 & Ha & _ & _). rewrite E1 in E.
    destruct (Nat.eqb_spec k 0) as [->|Hne]; [discriminate|].
    assert (D : df_len f <= df_len f1).
    { rewrite <- !abs_len, Ha by auto. cbn [with_bytes p_bytes]. rewrite app_length. lia. }
    destruct (IH (skipn k bs) f1 f' Hw W1 R1) as [E2|E2]; auto.
    + rewrite skipn_length. lia.
    + rewrite E2. eapply write_os; eauto.
    + right. lia.
Qed.

Section Refine.
Context {T : Type}.
Variable P : pcodec T.
Variable good : T -> Prop.
Hypothesis HP : pcodec_ok P good.
Variable crcf : bytes -> N.
Hypothesis Hcrc : forall b, (crcf b < 2 ^ 32)%N.
Variable rsz wsz : nat.
Hypothesis Hr : 0 < rsz.
Hypothesis Hw : PDX_HEADER_SIZE < wsz.
Variable dh : header.
Hypothesis Hdh : (h_version dh < 2 ^ 16 /\ h_uid dh < 2 ^ 64 /\ h_app dh < 2 ^ 32)%N.

Notation H := (pdx_header crcf dh).
Notation w := (pc_len P).
Definition ev (vs : list T) : bytes := concat (map (pc_enc P) vs).

Lemma body_length : length (pdx_body dh) = 22.
Proof. unfold pdx_body. rewrite !app_length, !le_length. reflexivity. Qed.
Lemma head_length : length H = 26.
Proof. unfold pdx_header. rewrite app_length, body_length, le_length. reflexivity. Qed.

Lemma check_ok : pdx_check crcf dh H = IOk tt.
Proof.
  unfold pdx_check.
  assert (E1 : slice H 0 22 = pdx_body dh) by (apply slice_cat_l; now rewrite body_length).
  assert (E2 : slice H 22 4 = le 4 (crcf (pdx_body dh))).
  { unfold pdx_header. replace 22 with (22 + 0) by reflexivity. rewrite slice_cat_r by apply body_length.
    rewrite <- (le_length 4 (crcf (pdx_body dh))) at 2. apply slice_all. }
  assert (Hsub : forall o n, o + n <= 22 -> slice H o n = slice (pdx_body dh) o n).
  { intros. unfold pdx_header. apply slice_app_l. rewrite body_length. lia. }
  assert (E3 : slice H 0 8 = telcoinx) by (rewrite Hsub by lia; reflexivity).
  assert (E4 : slice H 8 2 = le 2 (h_version dh)) by (rewrite Hsub by lia; reflexivity).
  assert (E5 : slice H 10 8 = le 8 (h_uid dh)) by (rewrite Hsub by lia; reflexivity).
  assert (E6 : slice H 18 4 = le 4 (h_app dh)) by (rewrite Hsub by lia; reflexivity).
  rewrite E1, E2, E3, E4, E5, E6. destruct Hdh as (D1 & D2 & D3).
  rewrite (unle_le_id 4 (crcf _)) by apply Hcrc. rewrite (unle_le_id 4) by exact D3.
  rewrite (unle_le_id 8) by exact D2. rewrite (unle_le_id 2) by exact D1.
  rewrite !N.eqb_refl. cbn [negb]. destruct (list_eq_dec N.eq_dec telcoinx telcoinx); [reflexivity|congruence].
Qed.

Lemma ev_length vs : length (ev vs) = length vs * w.
Proof.
  unfold ev. induction vs as [|v vs IH]; simpl; auto. rewrite app_length, IH, (pco_len _ _ HP). lia.
Qed.
Lemma ev_app a b : ev (a ++ b) = ev a ++ ev b.
Proof. unfold ev. now rewrite map_app, concat_app. Qed.

Lemma ev_firstn vs q : q <= length (ev vs) ->
  exists tail, firstn q (ev vs) = ev (firstn (q / w) vs) ++ tail /\ length tail < w /\ length tail = q mod w.
Proof.
  intros Hq. pose proof (pco_pos _ _ HP) as Hp.
  assert (Hdm : q = w * (q / w) + q mod w) by (apply Nat.div_mod; lia).
  assert (Hm : q mod w < w) by (apply Nat.mod_upper_bound; lia).
  rewrite ev_length in Hq.
  assert (Hj : q / w <= length vs) by (apply Nat.div_le_upper_bound; lia).
  assert (Hl : length (ev (firstn (q / w) vs)) = q / w * w) by (rewrite ev_length, firstn_length; nia).
  exists (firstn (q mod w) (ev (skipn (q / w) vs))). split; [|split].
  - rewrite <- (firstn_skipn (q / w) vs) at 1. rewrite ev_app, firstn_app, Hl.
    rewrite (firstn_all2 (n := q)) by lia. f_equal. f_equal. lia.
  - rewrite firstn_length. lia.
  - rewrite firstn_length, ev_length, skipn_length. nia.
Qed.
Lemma ev_slice vs k v : nth_error vs k = Some v -> slice (ev vs) (k * w) w = pc_enc P v.
Proof.
  intros E. apply nth_error_split in E as (a & b & -> & <-). rewrite ev_app.
  rewrite slice_app_r by (rewrite ev_length; lia). rewrite ev_length, Nat.sub_diag.
  unfold ev; cbn [map concat]. apply slice_cat_l. symmetry. apply (pco_len _ _ HP).
Qed.

(* ---------- opening ---------- *)
Lemma len_of f vs tail : wf_df f -> p_bytes (abs f) = H ++ ev vs ++ tail -> length tail < w ->
  pdx_len P f = length vs /\ (df_len f - 26) mod w = length tail.
Proof.
  intros W B Ht. pose proof (pco_pos _ _ HP). unfold pdx_len, PDX_HEADER_SIZE. rewrite <- abs_len, B by auto.
  rewrite !app_length, head_length, ev_length.
  replace (26 + (length vs * w + length tail) - 26) with (length tail + length vs * w) by lia.
  rewrite Nat.div_add, Nat.mod_add by lia. rewrite Nat.div_small, Nat.mod_small by auto. lia.
Qed.

Lemma open_at vs tail safe ro : let os := H ++ ev vs ++ tail in
  length tail < w -> safe <= length os -> (ro = true -> tail = []) ->
  exists f, pdx_open P crcf rsz wsz dh os safe ro = IOk f /\ wf_df f /\ p_bytes (abs f) = H ++ ev vs /\
    p_more (abs f) = [] /\ f_ro f = ro /\ length (f_os f) = 26 + length (ev vs) /\
    f_safe f = Nat.min safe (26 + length (ev vs)).
Proof.
  intros os Ht Hs Hro. unfold pdx_open.
  destruct (open_ok rsz os safe ro Hs) as (f & -> & W & A & O & S).
  assert (L : df_len f = length os) by (rewrite <- abs_len, A by auto; reflexivity).
  assert (Los : length os = 26 + length (ev vs) + length tail) by (unfold os; rewrite !app_length, head_length; lia).
  destruct (Nat.eqb_spec (df_len f) 0); [lia|]. rewrite seek_start.
  destruct (read_exact_ok rsz PDX_HEADER_SIZE (set_pos f 0) Hr (wf_set_pos _ _ W)) as (r & f1 & -> & W1 & O1 & S1 & HH).
  change (df_len (set_pos f 0)) with (df_len f) in HH. cbn [f_pos set_pos] in HH.
  destruct HH as [(_ & -> & A1)|((_ & Hbad) & _)]; [|unfold PDX_HEADER_SIZE in Hbad; lia].
  rewrite abs_set_pos, A in *. cbn [p_bytes at_pos p_pos p_more p_ro] in *.
  assert (Eh : slice os 0 PDX_HEADER_SIZE = H) by (unfold os; apply slice_cat_l; now rewrite head_length).
  rewrite Eh, check_ok. cbn [f_os f_safe set_pos] in O1, S1.
  assert (R1 : f_ro f1 = ro) by (change (p_ro (abs f1) = ro); now rewrite A1).
  assert (B1 : p_bytes (abs f1) = os) by now rewrite A1.
  destruct (len_of f1 vs tail W1 B1 Ht) as [L1 M1]. change (df_len f1 - PDX_HEADER_SIZE) with (df_len f1 - 26). rewrite M1, L1.
  destruct (Nat.eqb_spec (length tail) 0) as [E0|E0]; cbn [negb].
  - destruct tail; [|discriminate]. exists f1. split; auto. split; auto. rewrite B1. unfold os. rewrite app_nil_r.
    split; auto. split; [now rewrite A1|]. split; auto. rewrite O1, O, Los. cbn [length] in Los |- *. split; [lia|].
    rewrite S1, S. lia.
  - destruct ro; [rewrite Hro in E0; auto; simpl in E0; lia|].
    destruct (set_len_full rsz (PDX_HEADER_SIZE + length vs * w) f1 W1 R1) as (f2 & -> & W2 & A2 & S2 & O2).
    exists f2. split; auto. split; auto. rewrite A2. cbn [with_bytes p_bytes p_more].
    rewrite B1. replace (PDX_HEADER_SIZE + length vs * w) with (length (H ++ ev vs))
      by (rewrite app_length, head_length, ev_length; reflexivity).
    split.
    + unfold os. rewrite app_assoc, firstn_app, firstn_all, Nat.sub_diag, firstn_O, app_nil_r.
      rewrite (proj2 (Nat.sub_0_le _ _)) by (rewrite !app_length; lia). now rewrite app_nil_r.
    + rewrite A1. cbn [p_more at_pos]. split; auto. split; [change (p_ro (abs f2) = false); rewrite A2; exact R1|].
      rewrite O2, S2, S1, S, ev_length. unfold PDX_HEADER_SIZE. auto.
Qed.

Lemma open_new : exists f, pdx_open P crcf rsz wsz dh [] 0 false = IOk f /\ wf_df f /\ p_bytes (abs f) = H /\
    p_more (abs f) = [] /\ f_ro f = false /\ f_os f = [] /\ f_safe f = 0.
Proof.
  unfold pdx_open. destruct (open_ok rsz [] 0 false (le_n 0)) as (f & -> & W & A & O & S).
  assert (L : df_len f = 0) by (rewrite <- abs_len, A by auto; reflexivity). rewrite L. cbn [Nat.eqb]. rewrite seek_start.
  assert (R : f_ro (set_pos f 0) = false) by (change (p_ro (abs f) = false); now rewrite A).
  assert (Hw0 : 0 < wsz) by (unfold PDX_HEADER_SIZE in Hw; lia).
  destruct (write_all_ok wsz H (set_pos f 0) Hw0 (wf_set_pos _ _ W) R) as (f1 & E1 & W1 & R1 & A1 & S1 & _).
  rewrite E1. rewrite abs_set_pos, A in A1. cbn [at_pos with_bytes p_bytes p_more app p_pos p_ro] in A1.
  assert (B1 : p_bytes (abs f1) = H ++ ev [] ++ []) by (rewrite A1; cbn [p_bytes]; now rewrite app_nil_r).
  destruct (len_of f1 [] [] W1 B1 (pco_pos _ _ HP)) as [L1 M1].
  change (df_len f1 - PDX_HEADER_SIZE) with (df_len f1 - 26). rewrite M1. cbn [length Nat.eqb negb].
  exists f1. split; auto. split; auto. rewrite A1. split; auto. split; auto. split; auto.
  cbn [f_safe set_pos] in S1. split; [|congruence].
  (* the header fits the write buffer *)
  revert E1. unfold df_write_all. rewrite head_length. destruct H as [|x h] eqn:EH; [apply (f_equal (@length N)) in EH; rewrite head_length in EH; discriminate|].
  rewrite <- EH. assert (LH := head_length).
  assert (Hfw : f_w f = []).
  { assert (E : length (p_bytes (abs f)) = 0) by (rewrite A; reflexivity). unfold abs in E; cbn in E.
    rewrite app_length in E. destruct (f_w f); auto. simpl in E. lia. }
  change (df_write_all_loop wsz 26 (pdx_header crcf dh) (set_pos f 0)) with
    (df_write_all_loop wsz (Datatypes.S 25) (pdx_header crcf dh) (set_pos f 0)).
  cbn [df_write_all_loop]. rewrite EH. rewrite <- EH. unfold df_write. rewrite R. cbn [f_w set_pos]. rewrite Hfw. cbn [length].
  destruct (Nat.leb_spec wsz 0); [lia|]. cbn [f_w set_pos]. rewrite Hfw. cbn [length]. rewrite Nat.sub_0_r, LH.
  destruct (Nat.ltb_spec 26 wsz) as [_|]; [|unfold PDX_HEADER_SIZE in Hw; lia]. cbn [Nat.eqb].
  assert (Esk : skipn 26 (pdx_header crcf dh) = []) by (apply skipn_all2; rewrite LH; lia). rewrite Esk.
  cbn. intros E; injection E as <-. cbn. exact O.
Qed.

(* ---------- the invariant ---------- *)
Record pinv (f : dfile) (s : arr T) : Prop := {
  v_wf : wf_df f;
  v_bytes : p_bytes (abs f) = H ++ ev (a_vals s);
  v_more : p_more (abs f) = [];
  v_ro : f_ro f = a_ro s;
  v_good : Forall good (a_vals s);
  v_os : length (f_os f) = 0 \/ 26 <= length (f_os f);
  v_fsafe : f_safe f = 0 \/ 26 <= f_safe f;
  v_safe : a_safe s = 0 \/ 26 + a_safe s * w <= f_safe f;
  v_len : a_safe s <= length (a_vals s);
  v_rosafe : a_ro s = true -> f_safe f = length (f_os f) /\ a_safe s = length (a_vals s) }.

Lemma pinv_len f s : pinv f s -> pdx_len P f = length (a_vals s) /\ df_len f = 26 + length (a_vals s) * w.
Proof.
  intros I. destruct (len_of f (a_vals s) [] (v_wf _ _ I)) as [A _]; [rewrite app_nil_r; apply I|apply (pco_pos _ _ HP)|].
  split; auto. rewrite <- abs_len, (v_bytes _ _ I), app_length, head_length, ev_length by apply I. reflexivity.
Qed.

(* moving the cursor and reading keep everything *)
Lemma pinv_move f s f' : pinv f s -> wf_df f' -> (exists p, abs f' = at_pos (abs f) p) -> f_os f' = f_os f -> f_safe f' = f_safe f -> pinv f' s.
Proof.
  intros I W (p & A) O S. destruct I. constructor; auto; rewrite ?O, ?S; auto; try (rewrite A; auto).
  change (p_ro (abs f') = a_ro s). rewrite A. exact v_ro0.
Qed.
Lemma read_at f s p n : pinv f s -> p + n <= df_len f ->
  exists f', df_read_exact rsz n (set_pos f p) = (FOk (slice (H ++ ev (a_vals s)) p n), f') /\ pinv f' s.
Proof.
  intros I Hp. destruct (read_exact_ok rsz n (set_pos f p) Hr (wf_set_pos _ _ (v_wf _ _ I))) as (r & f' & -> & W & O & S & HH).
  change (df_len (set_pos f p)) with (df_len f) in HH. cbn [f_pos set_pos] in HH.
  destruct HH as [(_ & -> & A)|((? & ?) & _)]; [|lia].
  rewrite abs_set_pos in *. cbn [p_bytes at_pos] in *. exists f'. rewrite (v_bytes _ _ I). split; auto.
  apply pinv_move with f; auto. rewrite A. eexists; reflexivity.
Qed.

(* ---------- iterators ---------- *)
Lemma it_all_fwd vs : forall pre n fuel, Forall good vs -> length vs <= fuel -> n = length pre * w ->
  it_all P (S fuel) (mk_pit (ev (pre ++ vs)) n (length vs =? 0) false) = map Some vs.
Proof.
  pose proof (pco_pos _ _ HP) as Hp.
  induction vs as [|v vs IH]; intros pre n fuel G Hl ->; [reflexivity|]. cbn [length Nat.eqb] in *.
  inversion G; subst. destruct fuel as [|fuel]; [lia|].
  change (it_all P (S (S fuel)) ?i) with (match it_next P i with (None, _) => [] | (Some v, i') => v :: it_all P (S fuel) i' end).
  unfold it_next. cbn [it_done it_rev it_data it_pos map].
  rewrite (ev_slice _ _ v) by (rewrite nth_error_app2, Nat.sub_diag by auto; reflexivity).
  rewrite (pco_dec _ _ HP) by auto. f_equal.
  specialize (IH (pre ++ [v]) (length pre * w + w) fuel). rewrite <- app_assoc in IH. cbn [app] in IH.
  replace (length (ev (pre ++ v :: vs)) <=? length pre * w + w) with (length vs =? 0).
  - apply IH; auto; [lia|]. rewrite app_length. simpl. lia.
  - rewrite ev_length, app_length. cbn [length].
    destruct (Nat.eqb_spec (length vs) 0), (Nat.leb_spec ((length pre + S (length vs)) * w) (length pre * w + w)); auto; nia.
Qed.
Lemma it_all_bwd vs : forall post fuel, Forall good vs -> length vs <= fuel -> vs <> [] ->
  it_all P (S fuel) (mk_pit (ev (vs ++ post)) ((length vs - 1) * w) false true) = map Some (rev vs).
Proof.
  pose proof (pco_pos _ _ HP) as Hp.
  induction vs as [|v vs IH] using rev_ind; intros post fuel G Hl Hne; [congruence|].
  rewrite app_length in *. cbn [length] in *. replace (length vs + 1 - 1) with (length vs) by lia.
  apply Forall_app in G. destruct G as [G1 G2]. inversion G2; subst. destruct fuel as [|fuel]; [lia|].
  change (it_all P (S (S fuel)) ?i) with (match it_next P i with (None, _) => [] | (Some v, i') => v :: it_all P (S fuel) i' end).
  unfold it_next. cbn [it_done it_rev it_data it_pos].
  rewrite <- app_assoc. cbn [app].
  rewrite (ev_slice _ _ v) by (rewrite nth_error_app2, Nat.sub_diag by auto; reflexivity).
  rewrite (pco_dec _ _ HP) by auto. rewrite rev_app_distr. cbn [rev app map]. f_equal.
  destruct vs as [|v0 vs0].
  - cbn [length Nat.mul Nat.eqb]. reflexivity.
  - set (vs := v0 :: vs0) in *. specialize (IH (v :: post) fuel).
    replace (length vs * w =? 0) with false by (symmetry; apply Nat.eqb_neq; unfold vs; simpl; lia).
    replace (length vs * w - w) with ((length vs - 1) * w) by (rewrite Nat.mul_sub_distr_r; lia).
    apply IH; auto; [lia|discriminate].
Qed.

(* ---------- one operation ---------- *)
Lemma pdx_step_ok o f s : pinv f s -> iop_ok good o ->
  exists s', arr_step s o (fst (pdx_step P crcf rsz wsz dh o f)) s' /\ pinv (snd (pdx_step P crcf rsz wsz dh o f)) s'.
Proof.
  intros I Hok. pose proof (pco_pos _ _ HP) as Hp. destruct (pinv_len f s I) as [Ln Dl].
  assert (Hw0 : 0 < wsz) by (unfold PDX_HEADER_SIZE in Hw; lia).
  destruct o as [n v|n| |n|n|n| | |ro|n]; cbn [pdx_step].
  - (* save *)
    unfold pdx_save. rewrite Ln. destruct (Nat.eqb_spec (length (a_vals s)) n) as [<-|Hne]; cbn [negb].
    + destruct (a_ro s) eqn:Ero.
      * exists s. split; [|].
        -- assert (E : df_write_all wsz (pc_enc P v) f = (FErr ReadOnly, f)).
           { unfold df_write_all. rewrite (pco_len _ _ HP). destruct w as [|w0] eqn:Ew; [lia|].
             destruct (pc_enc P v) eqn:Ev; [pose proof (pco_len _ _ HP v) as X; rewrite Ev, Ew in X; discriminate|].
             cbn [df_write_all_loop]. unfold df_write. now rewrite (v_ro _ _ I), Ero. }
           rewrite E. cbn. now apply ASaveRo.
        -- assert (E : df_write_all wsz (pc_enc P v) f = (FErr ReadOnly, f)).
           { unfold df_write_all. rewrite (pco_len _ _ HP). destruct w as [|w0] eqn:Ew; [lia|].
             destruct (pc_enc P v) eqn:Ev; [pose proof (pco_len _ _ HP v) as X; rewrite Ev, Ew in X; discriminate|].
             cbn [df_write_all_loop]. unfold df_write. now rewrite (v_ro _ _ I), Ero. }
           rewrite E. exact I.
      * assert (R : f_ro f = false) by (rewrite (v_ro _ _ I); auto).
        destruct (write_all_ok wsz (pc_enc P v) f Hw0 (v_wf _ _ I) R) as (f' & E & W & R' & A & S & O).
        assert (Os := write_all_loop_os wsz _ _ _ _ Hw0 (v_wf _ _ I) R (le_n _) E). unfold df_write_all in E.
        unfold df_write_all. rewrite E. cbn [io yof fst snd]. eexists. split; [apply ASave; auto|].
        destruct I. constructor; cbn [a_vals a_safe a_ro]; auto.
        -- rewrite A. cbn [with_bytes p_bytes]. rewrite v_bytes0, ev_app, <- app_assoc. do 2 f_equal. unfold ev; cbn. now rewrite app_nil_r.
        -- rewrite A. exact v_more0.
        -- apply Forall_app; split; auto.
        -- destruct Os as [->|Os]; auto. rewrite Dl in Os. right. lia.
        -- now rewrite S.
        -- rewrite S. exact v_safe0.
        -- rewrite app_length. lia.
        -- discriminate.
    + exists s. split; auto. apply ASaveBad. auto.
  - (* load *)
    unfold pdx_load. rewrite Ln, seek_start.
    destruct (Nat.leb_spec (length (a_vals s)) n) as [Hle|Hlt].
    + exists s. split; auto. cbn. apply ALoadNone. now apply nth_error_None.
    + destruct (nth_error (a_vals s) n) as [v|] eqn:En; [|apply nth_error_None in En; lia].
      destruct (read_at f s (PDX_HEADER_SIZE + n * w) w I) as (f' & -> & I').
      { rewrite Dl. unfold PDX_HEADER_SIZE. nia. }
      rewrite slice_app_r by (rewrite head_length; unfold PDX_HEADER_SIZE; lia). rewrite head_length.
      replace (PDX_HEADER_SIZE + n * w - 26) with (n * w) by (unfold PDX_HEADER_SIZE; lia).
      rewrite (ev_slice _ _ _ En). rewrite (pco_dec _ _ HP).
      * exists s. split; auto. cbn. now apply ALoad.
      * pose proof (v_good _ _ I) as G. rewrite Forall_forall in G. apply G. eapply nth_error_In; eauto.
  - (* len *) exists s. split; auto. rewrite Ln. cbn. apply ALen.
  - (* iter *)
    unfold pdx_iter. rewrite Ln, seek_start. set (k := if n <? length (a_vals s) then n else length (a_vals s)).
    assert (Hk : k = Nat.min n (length (a_vals s))) by (unfold k; destruct (Nat.ltb_spec n (length (a_vals s))); lia).
    destruct (read_at f s PDX_HEADER_SIZE (k * w) I) as (f' & -> & I').
    { rewrite Dl. unfold PDX_HEADER_SIZE. nia. }
    assert (Es : slice (H ++ ev (a_vals s)) PDX_HEADER_SIZE (k * w) = ev (firstn n (a_vals s))).
    { rewrite slice_app_r by (rewrite head_length; auto). rewrite head_length. change (PDX_HEADER_SIZE - 26) with 0.
      rewrite <- (firstn_skipn n (a_vals s)) at 1. rewrite ev_app. apply slice_cat_l. rewrite ev_length, firstn_length, Hk. reflexivity. }
    rewrite Es. exists s. split; auto. cbn [yof fst]. unfold it_new.
    replace (length (ev (firstn n (a_vals s))) =? 0) with (length (firstn n (a_vals s)) =? 0).
    + change (ev (firstn n (a_vals s))) with (ev ([] ++ firstn n (a_vals s))).
      rewrite it_all_fwd with (n := 0); auto.
      * apply AIter.
      * apply Forall_forall. intros x Hx. pose proof (v_good _ _ I) as G. rewrite Forall_forall in G. apply G.
        eapply (in_firstn) || (rewrite <- (firstn_skipn n (a_vals s)); apply in_or_app; auto).
      * rewrite ev_length. cbn [app]. nia.
    + rewrite ev_length. destruct (length (firstn n (a_vals s))); auto. cbn. destruct w; [lia|reflexivity].
  - (* rev_iter *)
    unfold pdx_rev_iter. rewrite Ln. set (k := if n <? length (a_vals s) then n else length (a_vals s)).
    assert (Hk : k = Nat.min n (length (a_vals s))) by (unfold k; destruct (Nat.ltb_spec n (length (a_vals s))); lia).
    unfold df_seek. rewrite Dl.
    destruct (Z.leb_spec 0 (Z.of_nat (26 + length (a_vals s) * w) + - (Z.of_nat k * Z.of_nat w))) as [Hz|Hz]; [|nia].
    replace (Z.to_nat (Z.of_nat (26 + length (a_vals s) * w) + - (Z.of_nat k * Z.of_nat w))) with (26 + (length (a_vals s) - k) * w) by nia.
    destruct (read_at f s (26 + (length (a_vals s) - k) * w) (k * w) I) as (f' & -> & I').
    { rewrite Dl. nia. }
    set (l := skipn (length (a_vals s) - k) (a_vals s)).
    assert (Ll : length l = k) by (unfold l; rewrite skipn_length; lia).
    assert (Es : slice (H ++ ev (a_vals s)) (26 + (length (a_vals s) - k) * w) (k * w) = ev l).
    { rewrite slice_app_r by (rewrite head_length; apply Nat.le_add_r). rewrite head_length.
      rewrite (Nat.add_comm 26), Nat.add_sub.
      rewrite <- (firstn_skipn (length (a_vals s) - k) (a_vals s)) at 1. fold l. rewrite ev_app.
      assert (Lf : length (firstn (length (a_vals s) - k) (a_vals s)) = length (a_vals s) - k) by (rewrite firstn_length; lia).
      rewrite slice_app_r by (rewrite ev_length, Lf; apply le_n). rewrite ev_length, Lf, Nat.sub_diag.
      rewrite <- Ll, <- ev_length. apply slice_all. }
    rewrite Es. exists s. split; auto. cbn [yof fst]. unfold it_new_rev. rewrite ev_length, Ll.
    assert (Gl : Forall good l).
    { apply Forall_forall. intros x Hx. pose proof (v_good _ _ I) as G. rewrite Forall_forall in G. apply G.
      rewrite <- (firstn_skipn (length (a_vals s) - k) (a_vals s)). apply in_or_app; auto. }
    assert (Er : firstn n (rev (a_vals s)) = rev l).
    { unfold l. rewrite <- (firstn_skipn (length (a_vals s) - k) (a_vals s)) at 1. fold l. rewrite rev_app_distr.
      rewrite firstn_app, rev_length, Ll. rewrite firstn_all2 by (rewrite rev_length; lia).
      destruct (Nat.le_gt_cases n (length (a_vals s))).
      - replace (n - k) with 0 by lia. now rewrite firstn_O, app_nil_r.
      - replace (length (a_vals s) - k) with 0 by lia. cbn. now rewrite firstn_nil, app_nil_r. }
    destruct (Nat.eq_dec k 0) as [Ek|Ek].
    + rewrite Ek in *. destruct l; [|discriminate]. cbn in Er. cbn. replace (YVals []) with (YVals (map Some (firstn n (rev (a_vals s))))) by now rewrite Er.
      apply ARevIter.
    + replace (k * w =? 0) with false by (symmetry; apply Nat.eqb_neq; nia).
      replace (k * w - w) with ((length l - 1) * w) by (rewrite Ll, Nat.mul_sub_distr_r; lia).
      replace (ev l) with (ev (l ++ [])) by now rewrite app_nil_r.
      rewrite it_all_bwd; auto; [|nia|intros ->; simpl in Ll; lia]. rewrite <- Er. apply ARevIter.
  - (* truncate_to *)
    unfold pdx_truncate_to. rewrite Ln. destruct (Nat.leb_spec (length (a_vals s)) n) as [Hle|Hlt].
    + exists s. split; auto. now apply ATruncNop.
    + destruct (a_ro s) eqn:Ero.
      * assert (R : f_ro f = true) by (rewrite (v_ro _ _ I); auto).
        rewrite set_len_ro by (auto; apply I). exists s. split; auto. cbn. now apply ATruncRo.
      * assert (R : f_ro f = false) by (rewrite (v_ro _ _ I); auto).
        destruct (set_len_full rsz (PDX_HEADER_SIZE + n * w + w) f (v_wf _ _ I) R) as (f' & -> & W & A & Sf & O).
        cbn [io yof fst snd]. eexists. split; [apply ATrunc; auto|].
        assert (B : p_bytes (abs f') = H ++ ev (firstn (S n) (a_vals s))).
        { rewrite A. cbn [with_bytes p_bytes]. rewrite (v_bytes _ _ I).
          rewrite <- (firstn_skipn (S n) (a_vals s)) at 1 2. rewrite ev_app, app_assoc.
          rewrite firstn_app. replace (length (H ++ ev (firstn (S n) (a_vals s)))) with (PDX_HEADER_SIZE + n * w + w)
            by (rewrite app_length, head_length, ev_length, firstn_length; unfold PDX_HEADER_SIZE; nia).
          rewrite Nat.sub_diag, firstn_O, app_nil_r.
          replace (PDX_HEADER_SIZE + n * w + w) with (length (H ++ ev (firstn (S n) (a_vals s))))
            by (rewrite app_length, head_length, ev_length, firstn_length; unfold PDX_HEADER_SIZE; nia).
          rewrite firstn_all. rewrite (proj2 (Nat.sub_0_le _ _)) by (rewrite (app_length (_ ++ _) (ev (skipn _ _))); lia). now rewrite app_nil_r. }
        destruct I. constructor; cbn [a_vals a_safe a_ro]; auto.
        -- rewrite A. exact v_more0.
        -- change (p_ro (abs f') = false). rewrite A. exact R.
        -- apply Forall_forall. intros x Hx. rewrite Forall_forall in v_good0. apply v_good0.
           rewrite <- (firstn_skipn (S n) (a_vals s)). apply in_or_app; auto.
        -- right. rewrite O. unfold PDX_HEADER_SIZE. lia.
        -- rewrite Sf. unfold PDX_HEADER_SIZE. lia.
        -- rewrite Sf. unfold PDX_HEADER_SIZE. destruct (Nat.le_gt_cases (a_safe s) (S n)); nia.
        -- rewrite firstn_length. lia.
        -- discriminate.
  - (* truncate_all *)
    unfold pdx_truncate_all. destruct (a_ro s) eqn:Ero.
    + assert (R : f_ro f = true) by (rewrite (v_ro _ _ I); auto).
      rewrite set_len_ro by (auto; apply I). exists s. split; auto. cbn. now apply ATruncAllRo.
    + assert (R : f_ro f = false) by (rewrite (v_ro _ _ I); auto).
      destruct (set_len_full rsz PDX_HEADER_SIZE f (v_wf _ _ I) R) as (f' & -> & W & A & Sf & O).
      cbn [io yof fst snd]. eexists. split; [apply ATruncAll; auto|].
      destruct I. constructor; cbn [a_vals a_safe a_ro]; auto.
      * rewrite A. cbn [with_bytes p_bytes]. rewrite v_bytes0. rewrite firstn_app, head_length.
        change (PDX_HEADER_SIZE - 26) with 0. rewrite firstn_O, app_nil_r.
        rewrite firstn_all2 by (rewrite head_length; auto). change (ev []) with (@nil N). f_equal.
      * rewrite A. exact v_more0.
      * change (p_ro (abs f') = false). rewrite A. exact R.
      * right. rewrite O. unfold PDX_HEADER_SIZE. lia.
      * rewrite Sf. unfold PDX_HEADER_SIZE. lia.
      * discriminate.
  - (* sync *)
    exists (mk_arr (a_vals s) (length (a_vals s)) (a_ro s)). split; [apply ASync|]. unfold pdx_sync.
    destruct (flush_ok f (v_wf _ _ I)) as [W1 A1]. destruct (sync_ok _ W1) as [W2 A2].
    assert (Hb := bytes_os_w f (v_wf _ _ I) (v_more _ _ I)). rewrite (v_bytes _ _ I) in Hb.
    assert (R : f_ro f = a_ro s) by apply I.
    destruct (a_ro s) eqn:Ero.
    + assert (Ef : df_sync (df_flush f) = f) by (unfold df_flush; rewrite R; unfold df_sync; now rewrite R).
      cbn [snd]. rewrite Ef. destruct (v_rosafe _ _ I Ero) as [Q1 Q2]. destruct I. constructor; cbn [a_vals a_safe a_ro]; auto; rewrite <- ?Q2; auto.
    + cbn [snd].
      assert (Eos : f_os (df_sync (df_flush f)) = H ++ ev (a_vals s)).
      { unfold df_flush. rewrite R. unfold df_sync, df_drain; cbn [f_os f_safe f_ro f_end f_w]. rewrite R. cbn [f_os f_safe f_ro f_end f_w]. symmetry. exact Hb. }
      assert (Esf : f_safe (df_sync (df_flush f)) = length (H ++ ev (a_vals s))).
      { unfold df_flush. rewrite R. unfold df_sync, df_drain; cbn [f_os f_safe f_ro f_end f_w]. rewrite R. cbn [f_os f_safe f_ro f_end f_w]. now rewrite Hb. }
      assert (Ll : length (H ++ ev (a_vals s)) = 26 + length (a_vals s) * w) by (rewrite app_length, head_length, ev_length; reflexivity).
      destruct I. constructor; cbn [a_vals a_safe a_ro]; auto; try (rewrite A2, A1; auto).
      * change (p_ro (abs (df_sync (df_flush f))) = false). rewrite A2, A1. exact R.
      * right. rewrite Eos, Ll. lia.
      * right. rewrite Esf, Ll. lia.
      * right. rewrite Esf, Ll. lia.
      * discriminate.
  - (* reopen *)
    destruct (flush_ok f (v_wf _ _ I)) as [W1 A1]. destruct (sync_ok _ W1) as [W2 A2].
    assert (Hb := bytes_os_w f (v_wf _ _ I) (v_more _ _ I)). rewrite (v_bytes _ _ I) in Hb.
    assert (R : f_ro f = a_ro s) by apply I.
    assert (Ll : length (H ++ ev (a_vals s)) = 26 + length (a_vals s) * w) by (rewrite app_length, head_length, ev_length; reflexivity).
    assert (Hd : f_os (df_drop f) = H ++ ev (a_vals s) /\ f_safe (df_drop f) = length (H ++ ev (a_vals s))).
    { unfold df_drop, df_flush. rewrite R. destruct (a_ro s) eqn:Ero.
      - unfold df_sync. rewrite R. destruct (v_rosafe _ _ I Ero) as [Q1 Q2].
        assert (Hfw : f_w f = []) by (apply (wf_w _ (v_wf _ _ I)); auto). rewrite Hfw, app_nil_r in Hb. rewrite Hb. auto.
      - unfold df_sync, df_drain; cbn [f_os f_safe f_ro f_end f_w]. rewrite R. cbn [f_os f_safe f_ro f_end f_w]. rewrite Hb. auto. }
    destruct Hd as [D1 D2]. rewrite D1, D2.
    destruct (open_at (a_vals s) [] (length (H ++ ev (a_vals s))) ro) as (f' & E & W' & B' & M' & R' & O' & S').
    { cbn. lia. } { rewrite app_nil_r. lia. } { auto. }
    rewrite app_nil_r in E. rewrite E. cbn [fst snd]. eexists. split; [apply AReopen|].
    rewrite ev_length in O', S'. rewrite Ll in S'.
    constructor; cbn [a_vals a_safe a_ro]; auto; try apply I; try (right; lia). intros _. split; [lia|auto].
  - (* crash *)
    assert (Hb := bytes_os_w f (v_wf _ _ I) (v_more _ _ I)). rewrite (v_bytes _ _ I) in Hb.
    assert (Hfo : f_os f = firstn (length (f_os f)) (H ++ ev (a_vals s))).
    { rewrite Hb, firstn_app, firstn_all, Nat.sub_diag, firstn_O, app_nil_r. reflexivity. }
    assert (Hlo : length (f_os f) <= 26 + length (ev (a_vals s))).
    { rewrite <- head_length, <- app_length, Hb, app_length. lia. }
    pose proof (wf_safe _ (v_wf _ _ I)) as Hsf.
    set (m := Nat.min (Nat.max (f_safe f) n) (length (f_os f))).
    assert (Eos : firstn (Nat.max (f_safe f) n) (f_os f) = firstn m (H ++ ev (a_vals s))).
    { rewrite Hfo at 1. rewrite firstn_firstn. unfold m. f_equal. }
    assert (Hm : m = 0 \/ 26 <= m).
    { unfold m. destruct (v_os _ _ I) as [->|]; [lia|]. cbn [iop_ok] in Hok. unfold PDX_HEADER_SIZE in Hok.
      destruct Hok as [->|], (v_fsafe _ _ I); lia. }
    rewrite Eos. assert (Lm : length (firstn m (H ++ ev (a_vals s))) = m).
    { rewrite firstn_length, app_length, head_length. unfold m. lia. }
    rewrite Lm.
    destruct Hm as [Hm|Hm].
    + (* nothing of the file is left *)
      assert (S0 : f_safe f = 0) by (unfold m in Hm; lia). assert (As : a_safe s = 0) by (destruct (v_safe _ _ I); lia).
      assert (Ro : a_ro s = false).
      { destruct (a_ro s) eqn:Ero; auto. destruct (v_rosafe _ _ I Ero) as [Q1 Q2]. exfalso.
        assert (Hfw : f_w f = []) by (apply (wf_w _ (v_wf _ _ I)); rewrite (v_ro _ _ I); auto).
        rewrite Hfw, app_nil_r in Hb. apply (f_equal (@length N)) in Hb. rewrite app_length, head_length in Hb. lia. }
      rewrite Hm, (v_ro _ _ I), Ro. cbn [firstn]. rewrite Nat.min_0_r.
      destruct open_new as (f' & -> & W' & B' & M' & R' & O' & S'). cbn [fst snd].
      exists (mk_arr (firstn 0 (a_vals s)) (a_safe s) (a_ro s)). split; [apply ACrash; lia|].
      constructor; cbn [a_vals a_safe a_ro firstn]; auto; try (rewrite ?O', ?S', ?As; auto; fail); try congruence; try lia.
    + assert (Hq : m - 26 <= length (ev (a_vals s))) by (unfold m; lia).
      destruct (ev_firstn (a_vals s) (m - 26) Hq) as (tail & Et & Ht & Htm).
      set (j := (m - 26) / w) in *.
      assert (Hj : j <= length (a_vals s)) by (unfold j; apply Nat.div_le_upper_bound; rewrite ?ev_length in Hq; lia).
      assert (E1 : firstn m (H ++ ev (a_vals s)) = H ++ ev (firstn j (a_vals s)) ++ tail).
      { rewrite firstn_app, head_length, firstn_all2 by (rewrite head_length; lia). now rewrite Et. }
      rewrite E1.
      assert (Hsafe : a_safe s <= j).
      { destruct (v_safe _ _ I) as [->|]; [lia|]. unfold j. apply Nat.div_le_lower_bound; [lia|]. unfold m. lia. }
      destruct (open_at (firstn j (a_vals s)) tail (Nat.min (f_safe f) m) (f_ro f)) as (f' & E & W' & B' & M' & R' & O' & S'); auto.
      { rewrite <- E1, Lm. lia. }
      { rewrite (v_ro _ _ I). intros Ero. destruct (v_rosafe _ _ I Ero) as [Q1 Q2].
        assert (Hfw : f_w f = []) by (apply (wf_w _ (v_wf _ _ I)); rewrite (v_ro _ _ I); auto).
        rewrite Hfw, app_nil_r in Hb. apply (f_equal (@length N)) in Hb. rewrite app_length, head_length, ev_length in Hb.
        assert (Z : (m - 26) mod w = 0).
        { replace (m - 26) with (length (a_vals s) * w) by (unfold m; lia). apply Nat.mod_mul. lia. }
        rewrite Z in Htm. destruct tail; [auto|discriminate]. }
      rewrite E. cbn [fst snd].
      exists (mk_arr (firstn j (a_vals s)) (a_safe s) (a_ro s)). split; [apply ACrash; lia|].
      assert (Lj : length (firstn j (a_vals s)) = j) by (rewrite firstn_length; lia).
      rewrite ev_length, Lj in O', S'.
      assert (Hmj : 26 + j * w <= m).
      { unfold j. pose proof (Nat.mul_div_le (m - 26) w ltac:(lia)). lia. }
      constructor; cbn [a_vals a_safe a_ro]; auto.
      * rewrite R'. apply I.
      * apply Forall_forall. intros x Hx. pose proof (v_good _ _ I) as G. rewrite Forall_forall in G. apply G.
        rewrite <- (firstn_skipn j (a_vals s)). apply in_or_app; auto.
      * right. lia.
      * rewrite S'. destruct (v_fsafe _ _ I); lia.
      * rewrite S'. destruct (v_safe _ _ I); [auto|]. right. nia.
      * lia.
      * intros Ero. destruct (v_rosafe _ _ I Ero) as [Q1 Q2]. rewrite Lj. split; [|lia]. rewrite S', O'. lia.
Qed.

Lemma pdx_run_ok ops : forall f s, pinv f s -> Forall (iop_ok good) ops ->
  exists s', arr_run s ops (fst (pdx_run P crcf rsz wsz dh ops f)) s' /\ pinv (snd (pdx_run P crcf rsz wsz dh ops f)) s'.
Proof.
  induction ops as [|o ops IH]; intros f s I F; cbn [pdx_run].
  - exists s. split; auto. constructor.
  - inversion F; subst. destruct (pdx_step_ok o f s I) as (s1 & S1 & I1); auto.
    destruct (pdx_step P crcf rsz wsz dh o f) as [x f1]. cbn [fst snd] in *.
    destruct (IH f1 s1 I1) as (s2 & S2 & I2); auto.
    destruct (pdx_run P crcf rsz wsz dh ops f1) as [xs f2]. cbn [fst snd] in *.
    exists s2. split; auto. econstructor; eauto.
Qed.

Lemma fresh_pinv : exists f, pdx_open P crcf rsz wsz dh [] 0 false = IOk f /\ pinv f (mk_arr [] 0 false).
Proof.
  destruct open_new as (f & E & W & B & M & R & O & S). exists f. split; auto.
  constructor; cbn [a_vals a_safe a_ro]; try (rewrite ?O, ?S; auto; fail); auto; try congruence; try lia.
Qed.
End Refine.
