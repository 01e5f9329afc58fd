(** The epoch pack behaves like its log, across crashes. *)
From Verif Require Import Util OutModel OutSpec OutProofs EpackModel EpackSpec.
Local Open Scope nat_scope.

Section E.
Variable bd : N -> N.
Variable addr : N -> option N.
Variable hd : N -> subdag -> N -> N.
Variable cap : nat.
Variable rsz : rec -> nat.
Hypothesis rsz_pos : forall r, 0 < rsz r.

Notation slen := (slen rsz).
Notation flen := (flen rsz).
Notation cut := (cut rsz).
Notation truncate := (truncate rsz).
Notation sum d := (list_sum (map slen d)).
Definition recs (l : list rec) : list seg := map SRec l.

Lemma sum_app a b : sum (a ++ b) = sum a + sum b.
Proof. rewrite map_app, list_sum_app; auto. Qed.
Lemma sum_cons s t : sum (s :: t) = slen s + sum t.
Proof. auto. Qed.
Lemma flen_app a b : flen (a ++ b) = flen a + sum b.
Proof. unfold EpackModel.flen. rewrite sum_app; lia. Qed.

Lemma cut_sum d : forall n, n <= sum d -> sum (cut n d) = n.
Proof.
  induction d as [|s t IH]; intros n H; simpl in *; [lia|].
  destruct (slen s <=? n) eqn:E.
  - apply Nat.leb_le in E. simpl. rewrite IH; lia.
  - destruct (n =? 0) eqn:E0; simpl; [apply Nat.eqb_eq in E0; lia|lia].
Qed.
Lemma cut_cut d : forall a b, a <= b -> cut a (cut b d) = cut a d.
Proof.
  induction d as [|s t IH]; intros a b H; simpl; auto.
  destruct (slen s <=? b) eqn:Eb.
  - simpl. destruct (slen s <=? a) eqn:Ea; auto. rewrite IH; auto. lia.
  - apply Nat.leb_gt in Eb. destruct (slen s <=? a) eqn:Ea; [apply Nat.leb_le in Ea; lia|].
    destruct (b =? 0) eqn:E0; simpl.
    + apply Nat.eqb_eq in E0. replace a with 0 by lia; auto.
    + destruct (b <=? a) eqn:Eba; auto. apply Nat.leb_le in Eba. assert (a = b) by lia; subst.
      rewrite E0. replace (b - b) with 0 by lia. auto.
Qed.
Lemma cut_recs l2 : forall l1, cut (sum (recs l1)) (recs (l1 ++ l2)) = recs l1.
Proof.
  induction l1 as [|r t IH]; simpl.
  - destruct l2 as [|r t]; simpl; auto. pose proof (rsz_pos r). destruct (rsz r <=? 0) eqn:E; auto. apply Nat.leb_le in E; lia.
  - destruct (rsz r <=? rsz r + sum (recs t)) eqn:E; [|apply Nat.leb_gt in E; lia].
    replace (rsz r + sum (recs t) - rsz r) with (sum (recs t)) by lia. rewrite IH; auto.
Qed.
Lemma recs_pos l : l <> [] -> 0 < sum (recs l).
Proof. destruct l as [|r t]; [congruence|]. intros _. simpl. pose proof (rsz_pos r); lia. Qed.
Lemma fetch_at_recs l2 r : forall l1, fetch_at rsz (sum (recs l1)) (recs (l1 ++ r :: l2)) = Some r.
Proof.
  induction l1 as [|x t IH]; simpl; auto. pose proof (rsz_pos x).
  destruct (rsz x + sum (recs t) =? 0) eqn:E0; [apply Nat.eqb_eq in E0; lia|].
  destruct (rsz x <=? rsz x + sum (recs t)) eqn:E; [|apply Nat.leb_gt in E; lia].
  replace (rsz x + sum (recs t) - rsz x) with (sum (recs t)) by lia; auto.
Qed.
Lemma fetch_recs l1 r l2 : fetch rsz (flen (recs l1)) (recs (l1 ++ r :: l2)) = Some r.
Proof.
  unfold fetch, EpackModel.flen. destruct (_ <? _) eqn:E; [apply Nat.ltb_lt in E; lia|].
  replace (DATA_HEADER + sum (recs l1) - DATA_HEADER) with (sum (recs l1)) by lia. apply fetch_at_recs.
Qed.
Lemma fetch_at_in d : forall n r, fetch_at rsz n d = Some r -> In (SRec r) d.
Proof.
  induction d as [|s t IH]; intros n r H; simpl in *; [discriminate H|].
  destruct (n =? 0); [destruct s; [injection H as <-; auto|discriminate H]|].
  destruct (slen s <=? n); [eauto|discriminate H].
Qed.
Lemma fetch_in d pos r : fetch rsz pos d = Some r -> In (SRec r) d.
Proof. unfold fetch. destruct (pos <? DATA_HEADER); [intros H; discriminate H|]. apply fetch_at_in. Qed.
Lemma skip_recs l2 : forall l1, skip_to rsz (sum (recs l1)) (recs (l1 ++ l2)) = recs l2.
Proof.
  induction l1 as [|x t IH]; simpl; [destruct l2; auto|]. pose proof (rsz_pos x).
  destruct (rsz x + sum (recs t) =? 0) eqn:E0; [apply Nat.eqb_eq in E0; lia|].
  destruct (rsz x <=? rsz x + sum (recs t)) eqn:E; [|apply Nat.leb_gt in E; lia].
  replace (rsz x + sum (recs t) - rsz x) with (sum (recs t)) by lia; auto.
Qed.
Lemma between_recs l1 l2 l3 :
  recs_between rsz (flen (recs l1)) (flen (recs (l1 ++ l2))) (recs (l1 ++ l2 ++ l3)) = Some l2.
Proof.
  unfold recs_between.
  assert (E1 : flen (recs (l1 ++ l2 ++ l3)) = flen (recs (l1 ++ l2)) + sum (recs l3)).
  { unfold recs. rewrite app_assoc, map_app. apply flen_app. }
  assert (E2 : flen (recs (l1 ++ l2)) = flen (recs l1) + sum (recs l2)).
  { unfold recs. rewrite map_app. apply flen_app. }
  destruct (_ || _) eqn:E.
  - apply orb_true_iff in E. destruct E as [E|E]; apply Nat.ltb_lt in E; lia.
  - f_equal. rewrite E2. replace (flen (recs l1) + sum (recs l2) - flen (recs l1)) with (sum (recs l2)) by lia.
    unfold EpackModel.flen at 1. replace (DATA_HEADER + sum (recs l1) - DATA_HEADER) with (sum (recs l1)) by lia.
    rewrite skip_recs, cut_recs. unfold recs. rewrite map_map. apply map_id.
Qed.

(* ---------- layout of a pack that holds [outs] ---------- *)
Definition body (outs : list output) : list rec := flat_map (write_output bd) outs.
Definition layout (meta : N) (outs : list output) : list rec := RMeta meta :: body outs.
Definition bnd (meta : N) (outs : list output) : nat := flen (recs (layout meta outs)).
Fixpoint entries (meta : N) (done outs : list output) : list ipos :=
  match outs with
  | [] => []
  | o :: t => {| ip_hdr := bnd meta done; ip_start := bnd meta done; ip_end := bnd meta (done ++ [o]) |}
              :: entries meta (done ++ [o]) t
  end.

Lemma layout_app meta a b : layout meta (a ++ b) = layout meta a ++ body b.
Proof. unfold layout, body. rewrite flat_map_app; auto. Qed.
Lemma recs_app a b : recs (a ++ b) = recs a ++ recs b.
Proof. apply map_app. Qed.
Lemma bnd_app meta a b : bnd meta (a ++ b) = bnd meta a + sum (recs (body b)).
Proof. unfold bnd. rewrite layout_app, recs_app. apply flen_app. Qed.
Lemma body_pos o : 0 < sum (recs (body [o])).
Proof. apply recs_pos. unfold body; simpl. discriminate. Qed.
Lemma bnd_step meta a o : bnd meta a < bnd meta (a ++ [o]).
Proof. rewrite bnd_app. pose proof (body_pos o); lia. Qed.
Lemma bnd_le meta a b : bnd meta a <= bnd meta (a ++ b).
Proof. rewrite bnd_app; lia. Qed.
Lemma bnd_header meta a : DATA_HEADER < bnd meta a.
Proof. unfold bnd, EpackModel.flen, layout. cbn [recs map list_sum fold_right EpackModel.slen]. pose proof (rsz_pos (RMeta meta)); lia. Qed.

Lemma entries_length meta outs : forall done, length (entries meta done outs) = length outs.
Proof. induction outs as [|o t IH]; intros done; simpl; auto. Qed.
Lemma entries_app meta a : forall done b, entries meta done (a ++ b) = entries meta done a ++ entries meta (done ++ a) b.
Proof.
  induction a as [|o t IH]; intros done b; simpl; [rewrite app_nil_r; auto|].
  rewrite IH, <- app_assoc; auto.
Qed.
Lemma entries_nth meta outs : forall done i o, nth_error outs i = Some o ->
  nth_error (entries meta done outs) i =
    Some {| ip_hdr := bnd meta (done ++ firstn i outs); ip_start := bnd meta (done ++ firstn i outs);
            ip_end := bnd meta (done ++ firstn (S i) outs) |}.
Proof.
  induction outs as [|x t IH]; intros done i o H; [destruct i; discriminate H|].
  destruct i as [|i]; simpl in H.
  - simpl. rewrite app_nil_r; auto.
  - cbn [entries nth_error]. rewrite (IH _ _ _ H). cbn [firstn]. rewrite <- !app_assoc; auto.
Qed.
Lemma firstn_entries meta outs k : forall done, firstn k (entries meta done outs) = entries meta done (firstn k outs).
Proof. revert k; induction outs as [|o t IH]; intros [|k] done; simpl; auto. rewrite IH; auto. Qed.

Lemma truncate_layout meta outs k :
  truncate (bnd meta (firstn k outs)) (recs (layout meta outs)) = recs (layout meta (firstn k outs)).
Proof.
  unfold EpackModel.truncate, bnd, EpackModel.flen.
  rewrite <- (firstn_skipn k outs) at 2. rewrite layout_app.
  replace (DATA_HEADER + _ - DATA_HEADER) with (sum (recs (layout meta (firstn k outs)))) by lia.
  apply cut_recs.
Qed.

(* ---------- the repair ---------- *)
Lemma heal_loop_spec meta outs np : forall i ixc start ix L0,
  ix = entries meta [] outs ->
  np <= length outs -> start = length outs - 1 -> i <= start -> outs <> [] ->
  np <= S i ->
  (i = start -> ixc = ix) -> (i < start -> ixc = firstn (S (S i)) ix) ->
  heal_loop ixc start (bnd meta (firstn np outs)) L0 i =
    match np with
    | O => (if 0 =? start then ix else [], bnd meta (firstn 1 outs))
    | S _ => (firstn np ix, bnd meta (firstn np outs))
    end.
Proof.
  induction i as [|i IH]; intros ixc start ix L0 Eix Hnp Es Hi Hne Hle H1 H2.
  - assert (Hl : 0 < length outs) by (destruct outs; [congruence|simpl; lia]).
    destruct (nth_error outs 0) as [o|] eqn:No; [|apply nth_error_None in No; lia].
    pose proof (entries_nth meta outs [] 0 o No) as En.
    assert (Ec : nth_error ixc 0 = nth_error ix 0).
    { destruct (Nat.eq_dec 0 start) as [e|e]; [rewrite H1; auto|]. rewrite H2 by lia. rewrite Eix. destruct (entries meta [] outs); auto. }
    cbn [heal_loop]. rewrite Ec, Eix, En. cbn [ip_end app].
    destruct np as [|[|np]]; [| |lia].
    + assert (Hlt : bnd meta (firstn 0 outs) < bnd meta (firstn 1 outs)).
      { destruct outs as [|o' t]; [congruence|]. simpl. apply (bnd_step meta []). }
      destruct (_ <=? _) eqn:E; [apply Nat.leb_le in E; lia|].
      f_equal. destruct (0 =? start) eqn:E0; auto. apply Nat.eqb_eq in E0. rewrite H1; auto.
    + rewrite Nat.leb_refl. f_equal.
      destruct (0 =? start) eqn:E0.
      * apply Nat.eqb_eq in E0. rewrite H1 by auto. rewrite Eix. symmetry. apply firstn_all2. rewrite entries_length; lia.
      * apply Nat.eqb_neq in E0. rewrite H2 by lia. rewrite Eix, firstn_firstn. auto.
  - destruct (nth_error outs (S i)) as [o|] eqn:No; [|apply nth_error_None in No; lia].
    pose proof (entries_nth meta outs [] (S i) o No) as En.
    assert (Ec : nth_error ixc (S i) = nth_error ix (S i)).
    { destruct (Nat.eq_dec (S i) start) as [e|e]; [rewrite H1; auto|]. rewrite H2 by lia.
      rewrite <- (firstn_skipn (S (S (S i))) ix) at 2. rewrite nth_error_app1; auto.
      rewrite firstn_length, Eix, entries_length; lia. }
    cbn [heal_loop]. rewrite Ec, Eix, En. cbn [ip_end app].
    assert (Eix1 : (if S i =? start then ixc else firstn (S (S i)) ixc) = firstn (S (S i)) ix).
    { destruct (S i =? start) eqn:E0.
      - apply Nat.eqb_eq in E0. rewrite H1 by auto. symmetry. apply firstn_all2. rewrite Eix, entries_length; lia.
      - apply Nat.eqb_neq in E0. rewrite H2 by lia. rewrite firstn_firstn. f_equal; lia. }
    destruct (Nat.eq_dec np (S (S i))) as [->|Hn].
    + rewrite Nat.leb_refl, Eix1, Eix; auto.
    + assert (Hlt : bnd meta (firstn np outs) < bnd meta (firstn (S (S i)) outs)).
      { replace (firstn np outs) with (firstn np (firstn (S i) outs)) by (rewrite firstn_firstn; f_equal; lia).
        assert (Hs : firstn (S (S i)) outs = firstn (S i) outs ++ [o]).
        { clear - No. revert outs No. generalize (S i) as n. induction n as [|n IHn]; intros [|x t] No; simpl in *; try discriminate No.
          - injection No as ->; auto.
          - f_equal. apply IHn; auto. }
        rewrite Hs. eapply Nat.le_lt_trans; [|apply bnd_step].
        rewrite <- (firstn_skipn np (firstn (S i) outs)) at 2. apply bnd_le. }
      destruct (_ <=? _) eqn:E; [apply Nat.leb_le in E; lia|].
      rewrite Eix1, <- Eix. apply IH; auto; try lia.
Qed.

Lemma heal_spec meta outs np m k cf :
  np <= k -> k <= length outs -> bnd meta (firstn np outs) <= m -> m <= bnd meta outs ->
  bnd meta (firstn np outs) <= cf ->
  ~ (np = 0 /\ k = 1) ->
  heal rsz (truncate m (recs (layout meta outs))) (firstn k (entries meta [] outs)) cf (bnd meta (firstn np outs))
    = (recs (layout meta (firstn np outs)), entries meta [] (firstn np outs)).
Proof.
  intros Hk Hko Hm Hmo Hcf Hh. unfold heal.
  assert (El : flen (truncate m (recs (layout meta outs))) = m).
  { unfold EpackModel.flen, EpackModel.truncate. rewrite cut_sum; pose proof (bnd_header meta (firstn np outs)); [lia|].
    unfold bnd, EpackModel.flen in Hmo; lia. }
  assert (Ecc : truncate (bnd meta (firstn np outs)) (truncate m (recs (layout meta outs))) = recs (layout meta (firstn np outs))).
  { unfold EpackModel.truncate. rewrite cut_cut by lia. apply truncate_layout. }
  assert (E1 : heal_first rsz (truncate m (recs (layout meta outs))) cf (bnd meta (firstn np outs)) = recs (layout meta (firstn np outs))).
  { unfold heal_first. rewrite El. pose proof (bnd_header meta (firstn np outs)) as Hb.
    assert (Ehb : (DATA_HEADER <? bnd meta (firstn np outs)) = true) by (apply Nat.ltb_lt; lia).
    destruct ((cf <? m) || (bnd meta (firstn np outs) <? m)) eqn:E.
    - rewrite Ehb, andb_true_r. destruct (bnd meta (firstn np outs) <? cf) eqn:Ec; auto.
      apply Nat.ltb_ge in Ec. assert (cf = bnd meta (firstn np outs)) as -> by lia. rewrite Ehb; auto.
    - apply orb_false_iff in E. destruct E as [_ E]. apply Nat.ltb_ge in E.
      assert (m = bnd meta (firstn np outs)) as -> by lia. apply truncate_layout. }
  rewrite E1. fold (bnd meta (firstn np outs)).
  rewrite firstn_entries.
  destruct (entries meta [] (firstn k outs)) as [|e es] eqn:Ee.
  - assert (length (entries meta [] (firstn k outs)) = 0) by (rewrite Ee; auto).
    rewrite entries_length, firstn_length in H. assert (np = 0) by lia. subst np. simpl. auto.
  - rewrite <- Ee.
    assert (Hl : length (entries meta [] (firstn k outs)) = k) by (rewrite entries_length, firstn_length; lia).
    assert (Hk0 : k <> 0) by (rewrite Ee in Hl; simpl in Hl; lia).
    assert (Ef : firstn np outs = firstn np (firstn k outs)) by (rewrite firstn_firstn; f_equal; lia).
    rewrite Ef.
    rewrite (heal_loop_spec meta (firstn k outs) np) with (ix := entries meta [] (firstn k outs));
      rewrite ?entries_length, ?firstn_length; auto; try lia.
    + destruct np as [|np].
      * assert (Hs : (0 =? Nat.min k (length outs) - 1) = false) by (apply Nat.eqb_neq; lia).
        rewrite Hs. cbn [firstn entries].
        assert (Hlt : bnd meta [] < bnd meta (firstn 1 (firstn k outs))).
        { destruct outs as [|o t]; [simpl in *; lia|]. destruct k as [|k]; [lia|]. simpl. apply (bnd_step meta []). }
        cbn [firstn] in Hlt. rewrite Nat.min_r by lia. rewrite Nat.eqb_refl. auto.
      * rewrite Nat.min_id, Nat.eqb_refl. f_equal. rewrite firstn_entries; auto.
    + intro C. rewrite C in Ee. discriminate Ee.
Qed.

(* ---------- invariant ---------- *)
Variable epoch start meta : N.
Hypothesis digests_differ : forall a b, ch_num a <> ch_num b -> digest_of hd a <> digest_of hd b.

Definition maps_to (m : list (N * nat)) (outs : list output) (n : nat) :=
  forall i o, i < n -> nth_error outs i = Some o ->
    dmap_get (digest_of hd (header_of o)) m = Some (bnd meta (firstn i outs)).

Record inv (l : plog) (p : epack) : Prop := mk_inv {
  iv_epoch : p_epoch p = epoch; iv_start : p_start p = start;
  iv_kept : l_kept l <= length (l_outs l);
  iv_nums : forall i o, nth_error (l_outs l) i = Some o -> out_num o = (start + N.of_nat i)%N;
  iv_good : forall o, In o (l_outs l) -> good_output bd addr cap start o;
  iv_data : p_data p = recs (layout meta (l_outs l));
  iv_idx : p_idx p = entries meta [] (l_outs l);
  iv_clen : p_clen p = bnd meta (l_outs l); iv_blen : p_blen p = bnd meta (l_outs l);
  iv_dsync : bnd meta (firstn (l_kept l) (l_outs l)) <= p_dsync p;
  iv_isync : l_kept l <= p_isync p;
  iv_cdisk : bnd meta (firstn (l_kept l) (l_outs l)) <= p_clen_disk p;
  iv_bdisk : p_blen_disk p = bnd meta (firstn (l_kept l) (l_outs l));
  iv_cmap : maps_to (p_cmap p) (l_outs l) (length (l_outs l));
  iv_csync : p_csync p <= length (p_cmap p);
  iv_bsync : p_bsync p <= length (p_bmap p);
  iv_cdur : forall c, p_csync p + c <= length (p_cmap p) -> maps_to (skipn c (p_cmap p)) (l_outs l) (l_kept l) }.

Lemma fold_save_batch es : forall data bm,
  fst (fold_left (save_batch rsz) es (data, bm)) = data ++ recs (map (fun p => RBatch (snd p)) es).
Proof.
  induction es as [|e t IH]; intros data bm; simpl; [rewrite app_nil_r; auto|]. rewrite IH, <- app_assoc; auto.
Qed.
Lemma fold_save_batch_len es : forall data bm,
  length (snd (fold_left (save_batch rsz) es (data, bm))) = length es + length bm.
Proof. induction es as [|e t IH]; intros data bm; simpl; auto. rewrite IH; simpl; lia. Qed.

Lemma nth_firstn {A} (l : list A) : forall i n, i < n -> nth_error (firstn n l) i = nth_error l i.
Proof. induction l as [|x t IH]; intros [|i] [|n] H; simpl; auto; try lia. apply IH; lia. Qed.

Lemma maps_firstn m outs n k : n <= k -> maps_to m outs n -> maps_to m (firstn k outs) n.
Proof.
  intros Hk H i o Hi No. rewrite nth_firstn in No by lia. rewrite (H i o Hi No).
  rewrite firstn_firstn. do 3 f_equal. lia.
Qed.
Lemma maps_snoc m outs o n : n <= length outs -> maps_to m outs n -> maps_to m (outs ++ [o]) n.
Proof.
  intros Hn H i x Hi No. rewrite nth_error_app1 in No by lia. rewrite (H i x Hi No).
  rewrite firstn_app. replace (i - length outs) with 0 by lia. rewrite app_nil_r; auto.
Qed.

Lemma inv_save l p o : inv l p -> good_output bd addr cap start o ->
  inv (spec_step epoch start l (Save o)) (snd (save bd hd rsz p o)).
Proof.
  intros I G. unfold save, spec_step. rewrite (iv_epoch _ _ I), (iv_start _ _ I).
  destruct (sd_epoch (out_sub o) =? epoch)%N eqn:Ee; cbn [negb andb]; [|exact I].
  pose proof G as [_ [_ [_ Hs]]].
  assert (Hlen : length (p_idx p) = length (l_outs l)) by (rewrite (iv_idx _ _ I); apply entries_length).
  destruct (nth_error (p_idx p) (N.to_nat (out_num o - start))) as [e|] eqn:Ne.
  - assert (Hlt : N.to_nat (out_num o - start) < length (p_idx p)) by (apply nth_error_Some; congruence).
    destruct (out_num o =? _)%N eqn:En; [|exact I]. apply N.eqb_eq in En. lia.
  - apply nth_error_None in Ne.
    destruct (N.to_nat (out_num o - start) =? length (p_idx p)) eqn:En; cbn [negb].
    + apply Nat.eqb_eq in En.
      assert (Enum : out_num o = (start + N.of_nat (length (l_outs l)))%N) by lia.
      rewrite (proj2 (N.eqb_eq _ _) Enum).
      destruct (fold_left (save_batch rsz) (collect_batches bd o) (p_data p ++ [SRec (RHeader (header_of o))], p_bmap p)) as [data2 bmap2] eqn:Ef.
      pose proof (fold_save_batch (collect_batches bd o) (p_data p ++ [SRec (RHeader (header_of o))]) (p_bmap p)) as Ed.
      pose proof (fold_save_batch_len (collect_batches bd o) (p_data p ++ [SRec (RHeader (header_of o))]) (p_bmap p)) as Ebl.
      rewrite Ef in Ed, Ebl. simpl fst in Ed. simpl snd in Ebl. cbn [snd].
      assert (Ed2 : data2 = recs (layout meta (l_outs l ++ [o]))).
      { rewrite Ed, (iv_data _ _ I), layout_app, recs_app, <- app_assoc. f_equal. unfold body; simpl. rewrite app_nil_r. auto. }
      assert (Hkk : firstn (l_kept l) (l_outs l ++ [o]) = firstn (l_kept l) (l_outs l)).
      { rewrite firstn_app. replace (l_kept l - length (l_outs l)) with 0 by (pose proof (iv_kept _ _ I); lia). apply app_nil_r. }
      assert (Epos : flen (p_data p) = bnd meta (l_outs l)) by (rewrite (iv_data _ _ I); auto).
      constructor; simpl; rewrite ?Hkk; try (apply I); auto.
      * rewrite app_length; simpl. pose proof (iv_kept _ _ I); lia.
      * intros i x No. destruct (Nat.lt_ge_cases i (length (l_outs l))) as [Hi|Hi].
        { rewrite nth_error_app1 in No by lia. apply (iv_nums _ _ I); auto. }
        { rewrite nth_error_app2 in No by lia. destruct (i - length (l_outs l)) as [|q] eqn:Eq; simpl in No.
          - injection No as <-. rewrite Enum. f_equal. lia.
          - destruct q; discriminate No. }
      * intros x Hx. apply in_app_iff in Hx. destruct Hx as [Hx|[<-|[]]]; auto. apply (iv_good _ _ I); auto.
      * rewrite entries_app, (iv_idx _ _ I). simpl. rewrite Epos, Ed2. auto.
      * rewrite Ed2; auto.
      * rewrite Ed2; auto.
      * intros i x Hi No. rewrite app_length in Hi; simpl in Hi. destruct (Nat.lt_ge_cases i (length (l_outs l))) as [Hlt|Hge].
        { rewrite nth_error_app1 in No by lia.
          cbn [dmap_get]. destruct (N.eqb (digest_of hd (header_of o)) (digest_of hd (header_of x))) eqn:Eq.
          - exfalso. apply N.eqb_eq in Eq. revert Eq. apply digests_differ. simpl. rewrite (iv_nums _ _ I _ _ No). lia.
          - rewrite (iv_cmap _ _ I i x Hlt No). rewrite firstn_app. replace (i - length (l_outs l)) with 0 by lia. rewrite app_nil_r; auto. }
        { assert (i = length (l_outs l)) by lia. subst i. rewrite nth_error_app2, Nat.sub_diag in No by lia. simpl in No. injection No as <-.
          cbn [dmap_get]. rewrite N.eqb_refl, Epos. rewrite firstn_app, Nat.sub_diag, firstn_all, app_nil_r; auto. }
      * pose proof (iv_csync _ _ I); lia.
      * pose proof (iv_bsync _ _ I); lia.
      * intros c Hc. apply maps_snoc; [apply I|]. destruct c as [|c]; cbn [skipn].
        { intros i x Hi No. cbn [dmap_get]. pose proof (iv_kept _ _ I). destruct (N.eqb (digest_of hd (header_of o)) (digest_of hd (header_of x))) eqn:Eq.
          - exfalso. apply N.eqb_eq in Eq. revert Eq. apply digests_differ. simpl. rewrite (iv_nums _ _ I _ _ No). lia.
          - apply (iv_cmap _ _ I); auto. lia. }
        { apply (iv_cdur _ _ I). lia. }
    + apply Nat.eqb_neq in En. destruct (out_num o =? _)%N eqn:Eq; [|exact I]. apply N.eqb_eq in Eq. lia.
Qed.

Lemma inv_persist l p : inv l p -> inv (spec_step epoch start l Persist) (persist rsz p).
Proof.
  intros I. constructor; simpl; rewrite ?firstn_all; try apply I; auto.
  - rewrite (iv_data _ _ I). unfold bnd. lia.
  - rewrite (iv_idx _ _ I), entries_length; auto.
  - rewrite (iv_clen _ _ I); auto.
  - intros c Hc. assert (c = 0) by lia. subst; simpl. apply I.
Qed.

Lemma inv_crash l p j m k c b :
  inv l p -> ~ (l_kept l = 0 /\ k = 1) -> crash rsz p j m k c b <> None ->
  exists p', pstep bd hd rsz epoch start meta p (Crash j m k c b) = Some p' /\ inv (spec_step epoch start l (Crash j m k c b)) p'.
Proof.
  intros I Hh Hp. unfold pstep. unfold crash in *.
  set (ds := if past_data j then flen (p_data p) else p_dsync p) in *.
  set (is_ := if past_idx j then length (p_idx p) else p_isync p) in *.
  set (cs := if past_cons j then length (p_cmap p) else p_csync p) in *.
  destruct (_ && _) eqn:Eg in Hp; [|congruence]. rewrite Eg. clear Hp.
  repeat (apply andb_true_iff in Eg; destruct Eg as [Eg ?]).
  apply Nat.leb_le in Eg, H, H0, H1, H2, H3.
  unfold open_append. cbn [k_data k_idx k_cmap k_clen k_bmap k_blen k_dsync k_isync k_csync k_bsync].
  assert (Hds : bnd meta (firstn (l_kept l) (l_outs l)) <= ds).
  { unfold ds. destruct (past_data j); [|apply I]. rewrite (iv_data _ _ I).
    change (bnd meta (firstn (l_kept l) (l_outs l)) <= bnd meta (l_outs l)).
    rewrite <- (firstn_skipn (l_kept l) (l_outs l)) at 2. apply bnd_le. }
  assert (Hli : length (p_idx p) = length (l_outs l)) by (rewrite (iv_idx _ _ I); apply entries_length).
  assert (His : l_kept l <= is_).
  { unfold is_. destruct (past_idx j); [|apply I]. rewrite Hli. apply I. }
  assert (Hcf : bnd meta (firstn (l_kept l) (l_outs l)) <= (if past_cons j then p_clen p else p_clen_disk p)).
  { destruct (past_cons j); [|apply I]. rewrite (iv_clen _ _ I). rewrite <- (firstn_skipn (l_kept l) (l_outs l)) at 2. apply bnd_le. }
  assert (Hm : m <= bnd meta (l_outs l)). { rewrite (iv_data _ _ I) in H3. exact H3. }
  assert (Efetch : fetch rsz DATA_HEADER (truncate m (p_data p)) = Some (RMeta meta)).
  { assert (Hge : bnd meta [] <= m).
    { eapply Nat.le_trans; [|exact Eg]. eapply Nat.le_trans; [|exact Hds]. apply (bnd_le meta [] (firstn (l_kept l) (l_outs l))). }
    unfold fetch. rewrite Nat.ltb_irrefl, Nat.sub_diag. rewrite (iv_data _ _ I). unfold EpackModel.truncate, layout. simpl.
    unfold bnd, EpackModel.flen, layout in Hge; cbn [recs map body flat_map list_sum fold_right EpackModel.slen] in Hge.
    change 28 with DATA_HEADER.
    destruct (rsz (RMeta meta) <=? m - DATA_HEADER) eqn:E; cbn [fetch_at Nat.eqb]; [auto|].
    apply Nat.leb_gt in E. exfalso. lia. }
  rewrite Efetch, N.eqb_refl.
  rewrite (iv_bdisk _ _ I), (iv_data _ _ I), (iv_idx _ _ I), heal_spec; auto; try lia.
  eexists; split; [reflexivity|].
  set (q := firstn (l_kept l) (l_outs l)) in *.
  assert (Hql : length q = l_kept l) by (unfold q; rewrite firstn_length; pose proof (iv_kept _ _ I); lia).
  assert (Hqq : firstn (l_kept l) q = q) by (rewrite <- Hql; apply firstn_all).
  constructor; cbn [spec_step l_outs l_kept p_epoch p_start p_data p_idx p_cmap p_clen p_bmap p_blen p_dsync p_isync p_csync p_clen_disk p_bsync p_blen_disk]; fold q; rewrite ?Hqq; auto; try lia.
  - intros i o No. apply (iv_nums _ _ I). unfold q in No. rewrite nth_firstn in No; auto.
    rewrite <- Hql. apply nth_error_Some. fold q in No. congruence.
  - intros o Ho. apply (iv_good _ _ I). unfold q in Ho. rewrite <- (firstn_skipn (l_kept l) (l_outs l)). apply in_app_iff; auto.
  - change (flen (recs (layout meta q))) with (bnd meta q). lia.
  - rewrite entries_length, Hql. lia.
  - rewrite Hql. unfold q. apply maps_firstn; [lia|].
    destruct (past_cons j) eqn:Ej; subst cs.
    + assert (c = 0) by lia. subst c; simpl. intros i o Hi No. apply (iv_cmap _ _ I); auto. pose proof (iv_kept _ _ I); lia.
    + apply (iv_cdur _ _ I). lia.
  - rewrite skipn_length. lia.
  - rewrite skipn_length. pose proof (iv_bsync _ _ I). lia.
  - intros c' Hc'. rewrite skipn_length in Hc'. unfold q. apply maps_firstn; [lia|].
    assert (Es : skipn c' (skipn c (p_cmap p)) = skipn (c + c') (p_cmap p)).
    { clear. revert c'. induction (p_cmap p) as [|x t IH] in c |- *; intros c'; [rewrite !skipn_nil; auto|].
      destruct c; simpl; auto. }
    rewrite Es. destruct (past_cons j) eqn:Ej; subst cs.
    + assert (c + c' = 0) as -> by lia. simpl. intros i o Hi No. apply (iv_cmap _ _ I); auto. pose proof (iv_kept _ _ I); lia.
    + apply (iv_cdur _ _ I). lia.
Qed.

Lemma run_inv evs : forall l p, inv l p ->
  good_history bd addr cap epoch start l evs -> possible_history bd hd rsz epoch start meta p evs ->
  exists p', prun bd hd rsz epoch start meta p evs = Some p' /\ inv (fold_left (spec_step epoch start) evs l) p'.
Proof.
  induction evs as [|e t IH]; intros l p I G P; simpl; [eauto|].
  destruct G as [G1 G2]. destruct P as [P1 P2].
  destruct e as [o| |j m k c b].
  - simpl in *. apply IH; auto. apply inv_save; auto.
  - simpl in *. apply IH; auto. apply inv_persist; auto.
  - destruct (inv_crash l p j m k c b I G1 P1) as [p' [E I']]. rewrite E in P2 |- *. apply IH; auto.
Qed.

Lemma inv_create : inv {| l_outs := []; l_kept := 0 |} (persist rsz (create rsz epoch start meta)).
Proof.
  constructor; try reflexivity; try apply Nat.le_refl.
  - intros [|i] o H; discriminate H.
  - intros o [].
  - intros i o Hi; cbn in Hi; lia.
  - intros c _ i o Hi; cbn in Hi; lia.
Qed.

(* ---------- reading ---------- *)
Lemma split_at {A} (l : list A) i x : nth_error l i = Some x -> exists t, l = firstn i l ++ x :: t /\ firstn (S i) l = firstn i l ++ [x].
Proof.
  revert i; induction l as [|y l IH]; intros [|i] H; simpl in *; try discriminate H.
  - injection H as ->. eauto.
  - destruct (IH i H) as [t [E1 E2]]. exists t. split; f_equal; auto.
Qed.

Lemma inv_reads l p : inv l p -> reads_like bd addr hd cap rsz start (l_outs l) p.
Proof.
  intros I.
  assert (Hli : length (p_idx p) = length (l_outs l)) by (rewrite (iv_idx _ _ I); apply entries_length).
  assert (Hat : forall n, (n <? start)%N = false -> (start + N.of_nat (length (l_outs l)) <=? n)%N = false ->
     exists o, log_at start (l_outs l) n = Some o /\ nth_error (l_outs l) (N.to_nat (n - start)) = Some o).
  { intros n E1 E2. unfold log_at. rewrite E1. destruct (nth_error (l_outs l) (N.to_nat (n - start))) eqn:E; eauto.
    apply nth_error_None in E. apply N.ltb_ge in E1. apply N.leb_gt in E2. lia. }
  assert (Hout : forall n, (start + N.of_nat (length (l_outs l)) <=? n)%N = true -> log_at start (l_outs l) n = None).
  { intros n E. apply N.leb_le in E. unfold log_at. destruct (n <? start)%N eqn:E'; auto. apply nth_error_None. lia. }
  assert (Hlow : forall n, (n <? start)%N = true -> log_at start (l_outs l) n = None).
  { intros n E. unfold log_at. rewrite E; auto. }
  assert (Hhdr : forall i o, nth_error (l_outs l) i = Some o ->
     fetch rsz (bnd meta (firstn i (l_outs l))) (p_data p) = Some (RHeader (header_of o))).
  { intros i o No. destruct (split_at _ _ _ No) as [t [E1 _]]. rewrite (iv_data _ _ I). rewrite E1 at 2.
    rewrite layout_app. unfold bnd. apply (fetch_recs (layout meta (firstn i (l_outs l)))). }
  assert (Hnum : forall n, header_by_number rsz p n = option_map header_of (log_at start (l_outs l) n)).
  { intros n. unfold header_by_number. rewrite (iv_start _ _ I), Hli.
    destruct (n <? start)%N eqn:E1; [rewrite Hlow; auto|].
    destruct (start + _ <=? n)%N eqn:E2; [rewrite Hout; auto|].
    destruct (Hat n E1 E2) as [o [Eo No]]. rewrite Eo. rewrite (iv_idx _ _ I), (entries_nth _ _ _ _ _ No). cbn [ip_hdr app].
    rewrite (Hhdr _ _ No). auto. }
  split; [|split; [exact Hnum|split; [|split]]].
  - intros n. unfold get_output. rewrite (iv_start _ _ I), Hli.
    destruct (n <? start)%N eqn:E1; [rewrite Hlow; auto|].
    destruct (start + _ <=? n)%N eqn:E2; [rewrite Hout; auto|].
    destruct (Hat n E1 E2) as [o [Eo No]]. rewrite Eo. rewrite (iv_idx _ _ I), (entries_nth _ _ _ _ _ No). cbn [ip_start ip_end app].
    destruct (split_at _ _ _ No) as [t [Es1 Es2]]. set (i := N.to_nat (n - start)) in *.
    assert (Er : recs_between rsz (bnd meta (firstn i (l_outs l))) (bnd meta (firstn (S i) (l_outs l))) (p_data p) = Some (write_output bd o)).
    { rewrite Es2, (iv_data _ _ I). rewrite Es1 at 3. unfold bnd. rewrite !layout_app.
      assert (Eb : body (o :: t) = body [o] ++ body t) by (unfold body; simpl; rewrite app_nil_r; auto).
      rewrite Eb. rewrite between_recs. unfold body; simpl. rewrite app_nil_r; auto. }
    rewrite Er. destruct (iv_good _ _ I o) as [G1 [G2 [G3 _]]]; [eapply nth_error_In; eauto|].
    pose proof (write_read bd addr hd cap ENone o [] G1 G2 G3 eq_refl) as W. rewrite app_nil_r in W. rewrite W; auto.
  - intros n. unfold contains_number. rewrite (iv_start _ _ I), Hli.
    destruct (n <? start)%N eqn:E1.
    + rewrite Hlow by auto. apply N.ltb_lt in E1. split; [|congruence]. intros H. apply andb_true_iff in H. destruct H as [H _]. apply N.leb_le in H; lia.
    + destruct (start + N.of_nat (length (l_outs l)) <=? n)%N eqn:E2.
      * rewrite Hout by auto. apply N.leb_le in E2. split; [|congruence]. intros H. apply andb_true_iff in H. destruct H as [_ H]. apply N.ltb_lt in H; lia.
      * destruct (Hat n E1 E2) as [o [Eo _]]. rewrite Eo. apply N.ltb_ge in E1. apply N.leb_gt in E2. split; [intros _ C; discriminate C|intros _].
        apply andb_true_iff; split; [apply N.leb_le|apply N.ltb_lt]; lia.
  - unfold latest_header. destruct (p_idx p) as [|e es] eqn:Ei.
    + assert (l_outs l = []) as -> by (destruct (l_outs l); auto; simpl in Hli; lia). auto.
    + rewrite Hnum, (iv_start _ _ I), Hli.
      destruct (exists_last (l := l_outs l)) as [t0 [o0 El]]; [intro C; rewrite C in Hli; simpl in Hli; lia|]. rewrite El.
      rewrite rev_app_distr; simpl. unfold log_at. rewrite app_length; simpl.
      destruct (_ <? start)%N eqn:E; [apply N.ltb_lt in E; lia|].
      replace (N.to_nat (start + N.of_nat (length t0 + 1) - 1 - start)) with (length t0) by lia.
      rewrite nth_error_app2, Nat.sub_diag by lia. auto.
  - intros h d. split.
    + unfold header_by_digest. destruct (dmap_get d (p_cmap p)) as [pos|]; [|intros C; discriminate C].
      destruct (_ <=? pos); [intros C; discriminate C|].
      destruct (fetch rsz pos (p_data p)) as [[m|h'|b|]|] eqn:F; intros H; try discriminate H.
      destruct (N.eqb _ _) eqn:Ed; [|discriminate H]. injection H as ->. apply N.eqb_eq in Ed.
      apply fetch_in in F. rewrite (iv_data _ _ I) in F. unfold recs in F. apply in_map_iff in F. destruct F as [r [Er Hr]]. injection Er as ->.
      destruct Hr as [C|Hr]; [discriminate C|]. unfold body in Hr. apply in_flat_map in Hr. destruct Hr as [o [Ho Hr]].
      exists o. unfold write_output in Hr. destruct Hr as [Hr|Hr]; [injection Hr as <-; auto|].
      apply in_map_iff in Hr. destruct Hr as [? [C _]]. discriminate C.
    + intros [o [Ho [-> Ed]]]. apply In_nth_error in Ho. destruct Ho as [i No].
      assert (Hi : i < length (l_outs l)) by (apply nth_error_Some; congruence).
      unfold header_by_digest. rewrite <- Ed, (iv_cmap _ _ I i o Hi No).
      destruct (_ <=? _) eqn:E.
      * exfalso. apply Nat.leb_le in E. rewrite (iv_data _ _ I) in E. change (bnd meta (l_outs l) <= bnd meta (firstn i (l_outs l))) in E.
        destruct (split_at _ _ _ No) as [t [E1 _]]. rewrite E1 in E at 1. rewrite bnd_app in E.
        assert (0 < sum (recs (body (o :: t)))) by (apply recs_pos; unfold body; simpl; discriminate). lia.
      * rewrite (Hhdr _ _ No), N.eqb_refl; auto.
Qed.
End E.
