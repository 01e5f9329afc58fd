(** Proofs for C43. *)
From Verif Require Import Util OutModel OutSpec OutProofs ImpModel ImpSpec.
Local Open Scope nat_scope.

Lemma list_eqb_eq a : forall b, list_eqb a b = true <-> a = b.
Proof.
  induction a as [|x a IH]; intros [|y b]; simpl.
  - tauto.
  - split; intros H; discriminate H.
  - split; intros H; discriminate H.
  - rewrite andb_true_iff, N.eqb_eq, IH. split; [intros [-> ->]; auto|intros H; injection H; auto].
Qed.

Section P.
Variable bd : N -> N.
Variable hd : N -> subdag -> N -> N.
Variable dec : N -> emeta.
Variable idof : N -> N.
Variable per_auth : nat.

Notation read_output := (read_output bd hd idof per_auth).
Notation addr_of := (addr_of idof).
Notation odig o := (digest_of hd (header_of o)).

Lemma legacy_collect_sound cap recs : forall cnt avail h avail' rest,
  asm_inv bd avail [] ->
  legacy_collect bd cap cnt recs avail = Some (Some (h, avail', rest)) ->
  asm_inv bd avail' [] /\ exists used, recs = map RBatch used ++ RHeader h :: rest.
Proof.
  induction recs as [|[m|h0|b|] recs IH]; intros cnt avail h avail' rest I H; cbn [legacy_collect] in H; try discriminate H.
  - injection H as <- <- <-. split; auto. exists []; auto.
  - destruct (cap <? S cnt); [discriminate H|].
    assert (I' : asm_inv bd (amap_put (bd b) b avail) []).
    { split; [|split]; [|intros ? ? []|intros ? ? ? ? []]. intros d b'. rewrite amap_put_get.
      destruct (d =? bd b)%N eqn:E; [|apply I]. intros H'; injection H' as <-. apply N.eqb_eq in E; auto. }
    destruct (IH _ _ _ _ _ I' H) as [A [used U]]. split; auto. exists (b :: used). rewrite U. auto.
Qed.

Lemma legacy_sound addr cap e recs o rest :
  iter_to_output_legacy bd hd addr cap e recs = ROk o rest ->
  output_for bd addr (out_sub o) (out_parent o) (out_num o) o /\
  check_expectation hd (header_of o) e = true /\ length rest < length recs /\
  exists used, recs = used ++ rest /\ In (RHeader (header_of o)) used.
Proof.
  unfold iter_to_output_legacy. destruct (legacy_collect _ _ _ _ _) as [[[[h avail] rest']|]|] eqn:L; intros H; try discriminate H.
  assert (I0 : asm_inv bd [] []) by (split; [|split]; [intros d b C; discriminate C|intros ? ? []|intros ? ? ? ? []]).
  destruct (legacy_collect_sound _ _ _ _ _ _ _ I0 L) as [I [used U]].
  assert (Hlen : length rest' < length recs) by (rewrite U, app_length, map_length; simpl; lia).
  assert (Hu : exists used, recs = used ++ rest' /\ In (RHeader h) used).
  { exists (map RBatch used ++ [RHeader h]). rewrite <- app_assoc. split; auto. apply in_app_iff. simpl; auto. }
  destruct (check_expectation hd h e) eqn:Ee; [|discriminate H].
  destruct (forallb _ _); [|discriminate H]. destruct (_ <? length avail); [discriminate H|].
  destruct (Nat.eqb (num_primary_batches (ch_sub h)) 0) eqn:En.
  - injection H as <- <-. apply named_nil_len in En. unfold output_for, header_of; simpl.
    rewrite En. split; [repeat (split; auto); intros; congruence|]. split; [destruct h; auto|]. split; auto. destruct h; auto.
  - destruct (assemble _ _ _ _ _ _) as [bs|] eqn:A; [|discriminate H]. injection H as <- <-.
    destruct (assemble_ok _ _ _ _ _ [] _ I A) as [new [E2 [Fn _]]]. simpl in E2; subst new.
    assert (Hn : named (ch_sub h) <> []). { intro C. apply named_nil_len in C. congruence. }
    split; [|split; [destruct h; auto|split; [auto|destruct h; auto]]].
    unfold output_for; simpl. rewrite batch_digests_named. repeat (split; auto). intros; contradiction.
Qed.

Lemma read_output_sound ver m e recs o rest : read_output ver m e recs = ROk o rest ->
  output_for bd (addr_of m) (out_sub o) (out_parent o) (out_num o) o /\
  check_expectation hd (header_of o) e = true /\ length rest < length recs /\
  exists used, recs = used ++ rest /\ In (RHeader (header_of o)) used.
Proof.
  unfold ImpModel.read_output. destruct (ver =? 0)%N; [apply legacy_sound|]. intros H.
  destruct (read_sound _ _ _ _ _ _ _ _ H) as [A [_ [B [_ [used U]]]]]. split; auto. split; auto. split.
  - rewrite U. simpl. rewrite app_length. lia.
  - exists (RHeader (header_of o) :: map RBatch used). split; [exact U|left; auto].
Qed.

(** The saves of a sequence of outputs. *)
Fixpoint saves (epoch start : N) (os : list output) (l : list output) : sres :=
  match os with
  | [] => SOk l
  | o :: t => match log_save epoch start l o with SOk l' => saves epoch start t l' | r => r end
  end.

Fixpoint follows (e : expectation) (os : list output) : Prop :=
  match os with
  | [] => True
  | o :: t => check_expectation hd (header_of o) e = true /\ follows (EParent (odig o)) t
  end.

Lemma import_loop_ok fuel ver m final : forall e recs l m' l',
  import_loop bd hd idof per_auth fuel ver m final e recs l = IOk m' l' ->
  m' = m /\ exists os, follows e os /\ Forall (fun o => output_for bd (addr_of m) (out_sub o) (out_parent o) (out_num o) o) os /\
    Forall (fun o => In (RHeader (header_of o)) recs) os /\ saves (m_epoch m) (m_start m) os l = SOk l'.
Proof.
  induction fuel as [|f IH]; intros e recs l m' l' H; simpl in H; [discriminate H|].
  destruct (read_output ver m e recs) as [| |o rest] eqn:R; try discriminate H.
  - injection H as <- <-. split; auto. exists []. simpl. auto.
  - destruct (final <? out_num o)%N eqn:F; [discriminate H|]. apply N.ltb_ge in F.
    destruct (log_save _ _ l o) as [| |l1] eqn:S; try discriminate H.
    destruct (read_output_sound _ _ _ _ _ _ R) as [A [B [_ [used [U1 U2]]]]].
    destruct (IH _ _ _ _ _ H) as [-> [os [F1 [F2 [F3 F4]]]]]. split; auto. exists (o :: os). simpl. rewrite S.
    split; auto. split; auto. split; auto. constructor.
    + rewrite U1. apply in_app_iff; auto.
    + rewrite Forall_forall in *. intros x Hx. rewrite U1. apply in_app_iff. right. auto.
Qed.

(** Enough fuel. *)
Lemma import_loop_fuel ver m final : forall f1 f2 e recs l, length recs < f1 -> length recs < f2 ->
  import_loop bd hd idof per_auth f1 ver m final e recs l = import_loop bd hd idof per_auth f2 ver m final e recs l.
Proof.
  induction f1 as [|f1 IH]; intros f2 e recs l H1 H2; [lia|]. destruct f2 as [|f2]; [lia|]. simpl.
  destruct (read_output ver m e recs) as [| |o rest] eqn:R; auto.
  destruct (final <? out_num o)%N; auto. destruct (log_save _ _ l o); auto.
  destruct (read_output_sound _ _ _ _ _ _ R) as [_ [_ [L _]]]. apply IH; lia.
Qed.

Lemma saves_app epoch start os1 : forall os2 l,
  saves epoch start (os1 ++ os2) l = match saves epoch start os1 l with SOk l' => saves epoch start os2 l' | r => r end.
Proof. induction os1 as [|o t IH]; intros os2 l; simpl; auto. destruct (log_save _ _ l o); auto. Qed.

Lemma saves_epoch epoch start os : forall l l', saves epoch start os l = SOk l' ->
  Forall (fun o => sd_epoch (out_sub o) = epoch) os.
Proof.
  induction os as [|o t IH]; intros l l' H; simpl in H; [constructor|].
  destruct (log_save epoch start l o) as [| |l1] eqn:S; try discriminate H. constructor; [|eapply IH; eauto].
  unfold log_save in S. destruct (sd_hdrs _) as [|oh ohs]; [discriminate S|]. destruct (_ =? epoch)%N eqn:E; [apply N.eqb_eq in E; auto|discriminate S].
Qed.

(** The output appended last. *)
Lemma saves_last epoch start os : forall l, saves epoch start os [] = SOk l -> l <> [] ->
  exists pre o post l0, os = pre ++ o :: post /\ saves epoch start pre [] = SOk l0 /\ l = l0 ++ [o] /\
    log_save epoch start l0 o = SOk l.
Proof.
  induction os as [|x t IH] using rev_ind; intros l H Hl; simpl in H.
  - injection H as <-. congruence.
  - rewrite saves_app in H. destruct (saves epoch start t []) as [| |l1] eqn:S; try discriminate H.
    simpl in H. destruct (log_save epoch start l1 x) as [| |l2] eqn:L; try discriminate H. injection H as ->.
    pose proof L as L'. unfold log_save in L. destruct (sd_hdrs _) as [|oh ohs]; [discriminate L|]. destruct (negb _); [discriminate L|].
    destruct (_ <? length l1) eqn:E1.
    + injection L as ->. destruct (IH l eq_refl Hl) as [pre [o [post [l0 [E [A [B C]]]]]]].
      exists pre, o, (post ++ [x]), l0. rewrite E, <- app_assoc. auto.
    + destruct (_ =? length l1) eqn:E2; [|discriminate L]. injection L as <-.
      exists t, x, [], l1. auto.
Qed.

Lemma follows_app e os1 os2 : follows e (os1 ++ os2) -> follows e os1.
Proof. revert e. induction os1 as [|o t IH]; intros e H; simpl in *; auto. destruct H; auto. Qed.
Lemma follows_link os o x rest e : follows e (os ++ o :: x :: rest) -> out_parent x = odig o.
Proof.
  revert e. induction os as [|y t IH]; intros e H; simpl in H.
  - destruct H as [_ [H _]]. apply N.eqb_eq in H. exact H.
  - destruct H as [_ H]. eauto.
Qed.

Lemma linked_snoc p n hs h : linked hd p n (hs ++ [h]) ->
  linked hd p n hs /\ ch_num h = (n + N.of_nat (length hs) + 1)%N /\
  ch_parent h = match nth_error (rev hs) 0 with None => p | Some g => digest_of hd g end.
Proof.
  revert p n. induction hs as [|g hs IH]; intros p n H; simpl in H.
  - destruct H as [A [B _]]. simpl. split; auto. split; auto. lia.
  - destruct H as [A [B H]]. destruct (IH _ _ H) as [C [D E]]. split; [simpl; auto|]. split; [simpl length; lia|].
    rewrite E. simpl. destruct (rev hs); auto.
Qed.
Lemma linked_nth p n hs : forall i h, linked hd p n hs -> nth_error hs i = Some h -> ch_num h = (n + N.of_nat i + 1)%N.
Proof.
  revert p n. induction hs as [|g hs IH]; intros p n i h H Hn; [destruct i; discriminate Hn|].
  destruct H as [_ [B H]]. destruct i as [|i]; simpl in Hn.
  - injection Hn as <-. lia.
  - rewrite (IH _ _ _ _ H Hn). lia.
Qed.

(** Going back from a matching last header, the streamed outputs and the true headers agree as far
    as both reach; if the stream is longer, the output before the first one is the one named by the
    starting hash. *)
Lemma align hs : forall p n pre o, linked hd p n hs -> (exists hs', hs = hs' ++ [header_of o]) ->
  (forall q g, In q pre -> In g hs -> odig q = digest_of hd g -> header_of q = g) ->
  (forall os1 x y os2, pre ++ [o] = os1 ++ x :: y :: os2 -> out_parent y = odig x) ->
  (exists hs1, hs = hs1 ++ map header_of (pre ++ [o])) \/
  (exists os1 x os2, pre ++ [o] = os1 ++ x :: os2 /\ odig x = p /\ map header_of os2 = hs).
Proof.
  induction hs as [|h hs IH] using rev_ind; intros p n pre o L [hs' E] Hinj F.
  - destruct hs'; discriminate E.
  - apply app_inj_tail in E. destruct E as [<- ->].
    destruct (linked_snoc _ _ _ _ L) as [L1 [Hn Hp]].
    destruct pre as [|q pre _] using rev_ind.
    + left. exists hs. reflexivity.
    + assert (Hq : out_parent o = odig q).
      { apply (F pre q o []). rewrite <- app_assoc. auto. }
      cbn [header_of ch_parent] in Hp. rewrite Hq in Hp.
      destruct hs as [|g hs0 _] using rev_ind.
      * simpl in Hp. right. exists pre, q, [o]. rewrite <- app_assoc. auto.
      * rewrite rev_app_distr in Hp. simpl in Hp. apply (Hinj q g) in Hp; [|apply in_app_iff; simpl; auto|rewrite !in_app_iff; simpl; auto].
        destruct (IH p n pre q) as [[hs1 E1]|[os1 [x [os2 [E1 [E2 E3]]]]]]; auto.
        { exists hs0. rewrite Hp. auto. }
        { intros q' g' Hq' Hg'. apply Hinj; apply in_app_iff; auto. }
        { intros os1 x y os2 E. apply (F os1 x y (os2 ++ [o])). rewrite E, <- app_assoc. auto. }
        -- left. exists hs1. rewrite E1. rewrite !map_app, <- !app_assoc. auto.
        -- right. exists os1, x, (os2 ++ [o]). rewrite E1, <- app_assoc. split; auto. split; auto.
           rewrite map_app, E3. reflexivity.
Qed.

(** Saving consecutive outputs from the start appends them all. *)
Lemma saves_consec epoch start os : forall l,
  (forall i o, nth_error os i = Some o -> N.to_nat (out_num o - start) = length l + i) ->
  forall l', saves epoch start os l = SOk l' -> l' = l ++ os.
Proof.
  induction os as [|o t IH]; intros l H l' S; simpl in S.
  - injection S as <-. now rewrite app_nil_r.
  - destruct (log_save epoch start l o) as [| |l1] eqn:L; try discriminate S.
    assert (l1 = l ++ [o]) as ->.
    { unfold log_save in L. destruct (sd_hdrs _) as [|oh ohs]; [discriminate L|]. destruct (negb _); [discriminate L|].
      pose proof (H 0 o eq_refl) as E. rewrite E, Nat.add_0_r, Nat.ltb_irrefl, Nat.eqb_refl in L. injection L as <-. auto. }
    rewrite (IH (l ++ [o])) with (l' := l'); auto.
    + rewrite <- app_assoc. auto.
    + intros i x Hx. rewrite (H (Datatypes.S i) x Hx), app_length. simpl. lia.
Qed.

Lemma import_facts have ver er prev recs m l : chain_import bd hd dec idof per_auth have ver er prev recs = CInstalled m l ->
  verify_epoch_meta (er_epoch er) prev m = true /\
  exists os pre o post, os = pre ++ o :: post /\ l <> [] /\
    follows (if (er_epoch er =? 0)%N then ENone else EParent (er_chash prev)) os /\
    Forall (fun o => output_for bd (addr_of m) (out_sub o) (out_parent o) (out_num o) o) os /\
    Forall (fun o => In (RHeader (header_of o)) recs) os /\
    saves (m_epoch m) (m_start m) (pre ++ [o]) [] = SOk l /\
    (exists l0, l = l0 ++ [o]) /\ out_num o = er_cnum er /\ odig o = er_chash er.
Proof.
  unfold chain_import. destruct (match have with None => _ | Some _ => _ end); [intros H; discriminate H|].
  unfold stream_import. destruct recs as [|[x|h|b|] rest]; try (intros H; discriminate H).
  destruct (verify_epoch_meta _ _ _) eqn:V; [|intros H; discriminate H].
  destruct (import_loop _ _ _ _ _ _ _ _ _ _ _) as [| |m' l'] eqn:I; try (intros H; discriminate H).
  destruct (nth_error (rev l') 0) as [z|] eqn:Z; [|intros H; discriminate H].
  destruct (_ || _) eqn:C; [intros H; discriminate H|]. intros H; injection H as -> ->.
  apply orb_false_iff in C. destruct C as [C1 C2]. apply negb_false_iff, N.eqb_eq in C1. apply negb_false_iff, N.eqb_eq in C2.
  destruct (import_loop_ok _ _ _ _ _ _ _ _ _ I) as [-> [os [F1 [F2 [F3 F4]]]]].
  assert (Hl : l <> []) by (intros ->; discriminate Z).
  destruct (saves_last _ _ _ _ F4 Hl) as [pre [o [post [l0 [E [S1 [S2 S3]]]]]]].
  assert (z = o) as ->. { rewrite S2, rev_app_distr in Z. simpl in Z. congruence. }
  split; auto. exists os, pre, o, post. split; auto. split; auto. split; auto. split; auto. split; [|repeat (split; auto)].
  - rewrite Forall_forall in *. intros y Hy. right. auto.
  - rewrite saves_app, S1. simpl. rewrite S3. reflexivity.
  - eauto.
Qed.

Lemma header_eta o : header_of o = {| ch_parent := out_parent o; ch_sub := out_sub o; ch_num := out_num o |}.
Proof. reflexivity. Qed.

Lemma verify_fields epoch prev m : verify_epoch_meta epoch prev m = true ->
  m_epoch m = epoch /\ m_start m = (if (epoch =? 0)%N then 1 else er_cnum prev + 1)%N /\
  m_state m = er_state prev /\ m_cnum m = er_cnum prev /\ m_chash m = er_chash prev /\
  (forall k, In k (map fst (m_auth m)) <-> In k (er_next prev)).
Proof.
  unfold verify_epoch_meta. rewrite !andb_true_iff, !N.eqb_eq, list_eqb_eq. intros [[[[A B] C] [D E]] F].
  repeat (split; auto); intros H.
  - assert (In k (key_set (er_next prev))) as G by (rewrite <- F; apply bset_fold_in; auto).
    apply bset_fold_in in G. destruct G as [[]|G]; auto.
  - assert (In k (key_set (map fst (m_auth m)))) as G by (rewrite F; apply bset_fold_in; auto).
    apply bset_fold_in in G. destruct G as [[]|G]; auto.
Qed.

Lemma saves_in epoch start os : forall l l', saves epoch start os l = SOk l' -> forall o, In o l' -> In o l \/ In o os.
Proof.
  induction os as [|x t IH]; intros l l' H o Ho; simpl in H.
  - injection H as <-. auto.
  - destruct (log_save epoch start l x) as [| |l1] eqn:L; try discriminate H.
    destruct (IH _ _ H o Ho) as [H1|H1]; [|right; right; auto].
    unfold log_save in L. destruct (sd_hdrs _) as [|oh ohs]; [discriminate L|]. destruct (negb _); [discriminate L|].
    destruct (_ <? length l); [injection L as <-; auto|]. destruct (_ =? length l); [|discriminate L].
    injection L as <-. apply in_app_iff in H1. destruct H1 as [H1|[->|[]]]; auto. right; left; auto.
Qed.

Lemma import_main have ver er prev recs m l hs p n :
  no_collision hd recs hs ->
  chain_import bd hd dec idof per_auth have ver er prev recs = CInstalled m l ->
  true_epoch hd (er_epoch er) p n (er_chash er) (er_cnum er) hs ->
  m_start m = (n + 1)%N ->
  Forall (fun o => output_for bd (addr_of m) (out_sub o) (out_parent o) (out_num o) o) l /\
  (map header_of l = hs \/
   exists os1 x os2, odig x = p /\ (forall y, In y (os1 ++ [x]) -> In (RHeader (header_of y)) recs) /\ sd_epoch (out_sub x) = er_epoch er /\ map header_of os2 = hs /\
     saves (er_epoch er) (m_start m) (os1 ++ x :: os2) [] = SOk l /\
     follows (if (er_epoch er =? 0)%N then ENone else EParent (er_chash prev)) (os1 ++ x :: os2)).
Proof.
  intros Hinj H [L [Ep [hl [hs' [Eh [Dh Nh]]]]]] St.
  destruct (import_facts _ _ _ _ _ _ _ H) as [V [os [pre [o [post [E [Hl [F [Fo [Fi [S [[l0 El] [No Do]]]]]]]]]]]]].
  destruct (verify_fields _ _ _ V) as [Me _].
  rewrite Forall_forall in Fi.
  assert (F' : follows (if (er_epoch er =? 0)%N then ENone else EParent (er_chash prev)) (pre ++ [o])).
  { apply follows_app with (os2 := post). rewrite <- app_assoc. simpl. rewrite <- E. exact F. }
  assert (Ho : header_of o = hl) 
    by (apply Hinj; [apply Fi; rewrite E; apply in_app_iff; simpl; auto|rewrite Eh; apply in_app_iff; simpl; auto|congruence]).
  split.
  { apply Forall_forall. intros x Hx. destruct (saves_in _ _ _ _ _ S x Hx) as [[]|Hi].
    rewrite Forall_forall in Fo. apply Fo. rewrite E. apply in_app_iff in Hi. apply in_app_iff. simpl in *. tauto. }
  destruct (align hs p n pre o L) as [[hs1 E1]|[os1 [x [os2 [E1 [E2 E3]]]]]].
  - exists hs'. congruence.
  - intros q g Hq Hg. apply Hinj; auto. apply Fi. rewrite E. apply in_app_iff; auto.
  - intros os1 x y os2 Ey. apply (follows_link os1 x y os2 _ (eq_ind _ (fun z => follows _ z) F' _ Ey)).
  - left. assert (hs1 = []) as ->.
    { destruct (pre ++ [o]) as [|y t] eqn:Ey; [destruct pre; discriminate Ey|].
      assert (Hn : nth_error hs (length hs1) = Some (header_of y)).
      { rewrite E1. rewrite nth_error_app2 by lia. rewrite Nat.sub_diag. reflexivity. }
      pose proof (linked_nth _ _ _ _ _ L Hn) as Ny. cbn [header_of ch_num] in Ny.
      cbn [saves] in S. unfold log_save at 1 in S. destruct (sd_hdrs _) as [|oh ohs]; [discriminate S|]. destruct (negb _); [discriminate S|].
      cbn [length] in S. destruct (_ <? 0) eqn:X; [apply Nat.ltb_lt in X; lia|].
      destruct (_ =? 0) eqn:X2; [|discriminate S]. apply Nat.eqb_eq in X2. destruct hs1; auto. simpl in Ny. lia. }
    simpl in E1. rewrite E1 in *. f_equal. symmetry.
    rewrite (saves_consec (m_epoch m) (m_start m) (pre ++ [o]) []) with (l' := l); auto.
    intros i y Hy. assert (Hn : nth_error (map header_of (pre ++ [o])) i = Some (header_of y)) by (rewrite nth_error_map, Hy; auto).
    pose proof (linked_nth _ _ _ _ _ L Hn) as Ny. cbn [header_of ch_num] in Ny. simpl. lia.
  - right. exists os1, x, os2. rewrite E1 in *. rewrite Me in S. split; auto. split; [intros y Hy; apply Fi; rewrite E|split; [|repeat (split; auto)]].
    { change (pre ++ o :: post) with (pre ++ [o] ++ post). rewrite app_assoc, E1, <- app_assoc. rewrite !in_app_iff in *. simpl in *. tauto. }
    apply saves_epoch in S. rewrite Forall_forall in S. apply S. apply in_app_iff. simpl; auto.
Qed.

(** With the pre-genesis output in front, the first true output is dropped. *)
Lemma saves_shifted e n x hs os2 l p : map header_of os2 = hs -> linked hd p n hs -> out_num x = n ->
  saves e (n + 1) (x :: os2) [] = SOk l -> map header_of l = header_of x :: tl hs.
Proof.
  intros E L Nx S. cbn [saves] in S. unfold log_save at 1 in S. destruct (sd_hdrs _) as [|oh ohs]; [discriminate S|]. destruct (negb _); [discriminate S|].
  rewrite Nx in S. replace (N.to_nat (n - (n + 1))) with 0 in S by lia. cbn [length Nat.ltb Nat.leb Nat.eqb app] in S.
  destruct os2 as [|y t]; [simpl in *; subst; injection S as <-; auto|].
  simpl in E. subst hs. destruct L as [_ [Ny L]]. cbn [header_of ch_num] in Ny.
  cbn [saves] in S. unfold log_save at 1 in S. destruct (sd_hdrs _) as [|oh2 ohs2]; [discriminate S|]. destruct (negb _); [discriminate S|].
  rewrite Ny in S. replace (N.to_nat (n + 1 - (n + 1))) with 0 in S by lia. cbn [length Nat.ltb Nat.leb] in S.
  apply saves_consec in S.
  - rewrite S. reflexivity.
  - intros i z Hz. assert (Hn : nth_error (map header_of t) i = Some (header_of z)) by (rewrite nth_error_map, Hz; auto).
    pose proof (linked_nth _ _ _ _ _ L Hn) as Nz. cbn [header_of ch_num] in Nz. simpl. lia.
Qed.

(** Reading an honest stream. *)
Lemma honest_loop m final e0 : forall os recs l fuel, recs = concat (map (write_output bd) os) ->
  length recs < fuel -> follows e0 os ->
  Forall (fun o => output_for bd (addr_of m) (out_sub o) (out_parent o) (out_num o) o /\ one_batch_per_digest bd o /\
                   length (batch_set (out_sub o)) <= cap_of per_auth m /\ (out_num o <= final)%N) os ->
  forall ver, ver <> 0%N -> forall l', saves (m_epoch m) (m_start m) os l = SOk l' ->
  import_loop bd hd idof per_auth fuel ver m final e0 recs l = IOk m l'.
Proof.
  intros os. revert e0. induction os as [|o t IH]; intros e0 recs l fuel E Hf F Fo ver Hv l' S; (destruct fuel as [|fuel]; [lia|]).
  - simpl in E. subst recs. simpl in S. injection S as <-. cbn [import_loop]. unfold ImpModel.read_output.
    destruct (ver =? 0)%N eqn:X; [apply N.eqb_eq in X; congruence|]. reflexivity.
  - cbn [map concat] in E. inversion Fo as [|? ? [O1 [O2 [O3 O4]]] Fo']; subst. destruct F as [F1 F2].
    cbn [import_loop]. unfold ImpModel.read_output. destruct (ver =? 0)%N eqn:X; [apply N.eqb_eq in X; congruence|].
    rewrite (write_read bd (addr_of m) hd (cap_of per_auth m) e0 o (concat (map (write_output bd) t)) O1 O2 O3 F1).
    destruct (final <? out_num o)%N eqn:Y; [apply N.ltb_lt in Y; lia|].
    cbn [saves] in S. destruct (log_save _ _ l o) as [| |l1] eqn:Z; try discriminate S.
    apply IH; auto. assert (1 <= length (write_output bd o)) by (unfold write_output; simpl; lia). rewrite app_length in Hf. lia.
Qed.
End P.
