(** Proofs for C44. *)
From Verif Require Import Util OutModel OutSpec OutProofs FolModel FolSpec.
Local Open Scope nat_scope.

(* ---------- the cache ---------- *)
Lemma cget_in n o c : cget n c = Some o -> In (n, o) c.
Proof.
  unfold cget. destruct (find _ c) as [[k x]|] eqn:E; simpl; intros H; [|discriminate H]. injection H as <-.
  apply find_some in E. destruct E as [E1 E2]. simpl in E2. apply N.eqb_eq in E2. subst. exact E1.
Qed.
Lemma cdel_in n p c : In p (cdel n c) -> In p c.
Proof. intros H. apply filter_In in H. tauto. Qed.
Lemma cget_cput n o m c : cget m (cput n o c) = if (n =? m)%N then Some o else cget m c.
Proof.
  unfold cget, cput, cdel. cbn [find fst]. destruct (n =? m)%N eqn:E; auto. f_equal.
  induction c as [|[k x] c IH]; simpl; auto.
  destruct (k =? n)%N eqn:K; simpl.
  - rewrite IH. apply N.eqb_eq in K. subst k. rewrite E. auto.
  - rewrite IH. auto.
Qed.
Lemma cget_cdel n m c : cget m (cdel n c) = if (n =? m)%N then None else cget m c.
Proof.
  unfold cget, cdel. induction c as [|[k x] c IH]; simpl; [destruct (n =? m)%N; auto|].
  destruct (k =? n)%N eqn:K; simpl.
  - rewrite IH. apply N.eqb_eq in K. subst k. destruct (n =? m)%N; auto.
  - destruct (k =? m)%N eqn:M; auto. apply N.eqb_eq in M. subst k.
    rewrite N.eqb_sym, K. reflexivity.
Qed.

Lemma by_num_in n o l : by_num n l = Some o -> In o l /\ out_num o = n.
Proof. intros H. apply find_some in H. destruct H as [H1 H2]. apply N.eqb_eq in H2. auto. Qed.

Lemma nth_error_firstn {A} (l : list A) m i : nth_error (firstn m l) i = if i <? m then nth_error l i else None.
Proof.
  revert m i. induction l as [|x l IH]; intros m i; destruct m as [|m], i as [|i]; simpl; auto.
  - destruct (S i <? S m); auto.
  - rewrite IH. reflexivity.
Qed.

Section P.
Variable bd : N -> N.
Variable hd : N -> subdag -> N -> N.
Variable addr : N -> N -> option N.
Variable cap : N -> nat.
Variable H0 : chdr.
Variable T : N -> output.
Notation epoch_of := (epoch_of T).
Notation digest_at := (digest_at hd T).
Notation from_on := (from_on T).
Notation true_output := (true_output T).
Notation step := (step bd hd addr cap H0).
Notation run := (run bd hd addr cap H0).
Hypothesis Ch : chain bd hd addr H0 T.

Lemma T_num n : out_num (T n) = n. Proof. apply Ch. Qed.
Lemma T_par n : out_parent (T (n + 1)) = digest_at n. Proof. apply Ch. Qed.
Lemma T_zero : header_of (T 0) = H0. Proof. apply Ch. Qed.
Lemma T_par' n : (0 < n)%N -> out_parent (T n) = digest_at (n - 1).
Proof. intros H. replace n with (n - 1 + 1)%N at 1 by lia. apply T_par. Qed.
Lemma epoch_mono k n : (epoch_of n <= epoch_of (n + N.of_nat k))%N.
Proof.
  induction k as [|k IH]; [replace (n + N.of_nat 0)%N with n by lia; lia|].
  replace (n + N.of_nat (S k))%N with (n + N.of_nat k + 1)%N by lia.
  destruct Ch as [_ [_ [_ [_ M]]]]. specialize (M (n + N.of_nat k)%N). lia.
Qed.
Lemma epoch_le n m : (n <= m)%N -> (epoch_of n <= epoch_of m)%N.
Proof. intros H. replace m with (n + N.of_nat (N.to_nat (m - n)))%N by lia. apply epoch_mono. Qed.

Definition true_header (h : chdr) : Prop := h = header_of (T (ch_num h)).
Lemma true_output_header o : true_output o -> true_header (header_of o).
Proof. unfold FolSpec.true_output, true_header. intros H. cbn [header_of ch_num]. congruence. Qed.
Lemma true_T n : true_output (T n).
Proof. unfold FolSpec.true_output. rewrite T_num. auto. Qed.
Lemma true_H0 : true_header H0.
Proof. unfold true_header. rewrite <- T_zero. cbn [header_of ch_num]. rewrite T_num. auto. Qed.

Definition job_ok (j : job) : Prop := match j with Walking n h _ | Streaming n h _ => h = digest_at n end.

(** Safety part of the invariant: everything stored is true. *)
Definition inv (s : fol) : Prop :=
  (forall n o, In (n, o) (f_cache s) -> o = T n) /\
  Forall true_output (f_static s) /\ Forall true_output (f_stage s) /\
  true_pack T (f_epoch s) (f_start s) (f_log s) (f_sealed s) (f_latest s) /\
  Forall (fun w => job_ok (w_job w)) (f_walks s) /\
  (forall h, f_tip s = Some h -> true_header h) /\
  (forall n h fl, f_gap s = Some (n, h, fl) -> h = digest_at n) /\
  (forall t, f_strm s = Some t -> true_header (s_last t) /\ true_header (s_target t) /\ s_epoch t = f_epoch s) /\
  Forall true_output (f_chan s).

Lemma local_true s n o : inv s -> local s n = Some o -> o = T n.
Proof.
  intros [_ [St [Sg [[_ [_ [Pk _]]] _]]]] H. unfold local in H.
  destruct (if (f_start s <=? n)%N then _ else None) as [x|] eqn:E.
  - injection H as <-. destruct (f_start s <=? n)%N eqn:L; [|discriminate E]. apply N.leb_le in L.
    destruct (Pk _ _ E) as [-> _]. f_equal. lia.
  - destruct (by_num n (f_stage s)) as [x|] eqn:E2.
    + injection H as <-. apply by_num_in in E2. destruct E2 as [I1 I2]. rewrite Forall_forall in Sg. rewrite (Sg x I1). f_equal. auto.
    + apply by_num_in in H. destruct H as [I1 I2]. rewrite Forall_forall in St. rewrite (St o I1). f_equal. auto.
Qed.

Lemma header_at_true s n : inv s -> true_header (header_at H0 s n) /\ (ch_num (header_at H0 s n) <= n)%N.
Proof.
  intros I. unfold header_at. destruct (n =? 0)%N eqn:E.
  - split; [apply true_H0|]. rewrite <- T_zero. cbn [header_of ch_num]. rewrite T_num. lia.
  - destruct (local s n) as [o|] eqn:L.
    + rewrite (local_true _ _ _ I L). split; [apply true_output_header, true_T|]. cbn [header_of ch_num]. rewrite T_num. lia.
    + split; [apply true_H0|]. rewrite <- T_zero. cbn [header_of ch_num]. rewrite T_num. lia.
Qed.

Lemma Forall_firstn {A} (P : A -> Prop) l i : Forall P l -> Forall P (firstn i l).
Proof. intros H. rewrite Forall_forall in *. intros x Hx. apply H. rewrite <- (firstn_skipn i l). apply in_app_iff; auto. Qed.
Lemma Forall_skipn {A} (P : A -> Prop) l i : Forall P l -> Forall P (skipn i l).
Proof. intros H. rewrite Forall_forall in *. intros x Hx. apply H. rewrite <- (firstn_skipn i l). apply in_app_iff; auto. Qed.
Lemma Forall_remove {A} (P : A -> Prop) l i : Forall P l -> Forall P (remove_nth i l).
Proof. intros H. unfold remove_nth. apply Forall_app. split; [apply Forall_firstn|apply Forall_skipn]; auto. Qed.
Lemma Forall_replace {A} (P : A -> Prop) l i x : P x -> Forall P l -> Forall P (replace_nth i x l).
Proof. intros Hx H. unfold replace_nth. apply Forall_app. split; [apply Forall_firstn; auto|constructor; [auto|apply Forall_skipn; auto]]. Qed.

(** Changing one component. *)
Ltac nine := refine (conj _ (conj _ (conj _ (conj _ (conj _ (conj _ (conj _ (conj _ _)))))))); auto.
Ltac pieces I := destruct I as [Ic [Is [Ig [Ip [Iw [It [Ia [Im In_]]]]]]]].
Lemma inv_walks s w : inv s -> Forall (fun w => job_ok (w_job w)) w -> inv (set_walks s w).
Proof. intros I H. pieces I. unfold inv, set_walks; cbn -[true_pack]. nine. Qed.
Lemma inv_tip s t : inv s -> (forall h, t = Some h -> true_header h) -> inv (set_tip s t).
Proof. intros I H. pieces I. unfold inv, set_tip; cbn -[true_pack]. nine. Qed.
Lemma inv_newer s h : inv s -> true_header h -> inv (newer_tip s h).
Proof. intros I H. unfold newer_tip. destruct (_ <? _)%N; auto. apply inv_tip; auto. intros h' E. congruence. Qed.
Lemma inv_cache s c : inv s -> (forall n o, In (n, o) c -> o = T n) -> inv (set_cache s c).
Proof. intros I H. pieces I. unfold inv, set_cache; cbn -[true_pack]. nine. Qed.
Lemma inv_first s b n : inv s -> inv (set_first s b n).
Proof. intros I. pieces I. unfold inv, set_first; cbn -[true_pack]. nine. Qed.
Lemma inv_fail s : inv s -> inv (fail s).
Proof. intros I. pieces I. unfold inv, fail; cbn -[true_pack]. nine. intros t H; discriminate H. Qed.
Lemma inv_chan s c : inv s -> Forall true_output c -> inv (set_chan s c).
Proof. intros I H. pieces I. unfold inv, set_chan; cbn -[true_pack]. nine. Qed.
Lemma inv_stage s c : inv s -> Forall true_output c -> inv (set_stage s c).
Proof. intros I H. pieces I. unfold inv, set_stage; cbn -[true_pack]. nine. Qed.
Lemma inv_strm s o : inv s -> (forall t, o = Some t -> true_header (s_last t) /\ true_header (s_target t) /\ s_epoch t = f_epoch s) -> inv (set_strm s o).
Proof. intros I H. pieces I. unfold inv, set_strm; cbn -[true_pack]. nine. Qed.

Lemma inv_start_walk s fl n h : inv s -> h = digest_at n -> inv (start_walk s fl n h).
Proof.
  intros I H. unfold start_walk. destruct (_ <? _)%N; auto. apply inv_walks; auto. apply Forall_app. split; [apply I|].
  constructor; auto.
Qed.

(** A verified answer is the true output. *)
Lemma decoded_true c recs hash o rest n : hash = digest_at n -> honest_digests bd hd T recs -> same_addresses addr T c ->
  iter_to_output bd (addr c) hd (cap c) (EDigest hash) recs = ROk o rest -> o = T n.
Proof.
  intros Hh [D1 D2] A R. destruct (read_sound _ _ _ _ _ _ _ _ R) as [F [_ [E [B [used U]]]]].
  cbn [check_expectation] in E. apply N.eqb_eq in E. rewrite Hh in E.
  assert (Hd : header_of o = header_of (T n)) by (apply D1; auto; rewrite U; left; auto).
  unfold header_of in Hd. injection Hd as E1 E2 E3.
  apply (output_for_unique bd (addr (epoch_of n)) (out_sub (T n)) (out_parent (T n)) (out_num (T n))).
  - intros a b Ha Hb. apply (D2 a n b); auto.
  - rewrite <- E1, <- E3. destruct F as [_ [_ [_ [F4 [F5 F6]]]]]. rewrite E2 in *.
    unfold output_for. repeat (split; auto).
    intros Hn. specialize (F6 Hn). assert (Hin : forall h, In h (sd_hdrs (out_sub (T n))) -> forall a, addr c (oh_author h) = Some a -> addr (epoch_of n) (oh_author h) = Some a) by (intros h Hi a; apply A; auto).
    revert Hin. generalize (sd_hdrs (out_sub (T n))) (out_batches o) F6. clear. intros l1 l2 F.
    induction F as [|x y xs ys [P Q] F IH]; intros Hin; constructor; [split; auto; apply Hin; simpl; auto|apply IH; intros h Hi; apply Hin; simpl; auto].
  - destruct Ch as [_ [_ [_ [C _]]]]. apply C.
Qed.

Lemma inv_continue s i w n h st : inv s -> h = digest_at n -> inv (continue_walk s i w n h st).
Proof.
  intros I H. unfold continue_walk. destruct (_ <? _)%N; apply inv_walks; auto.
  - apply Forall_remove, I.
  - apply Forall_replace; [exact H|apply I].
Qed.

Lemma inv_walk s i seen a : inv s -> match a with Some (c, recs) => honest_digests bd hd T recs /\ same_addresses addr T c | None => True end ->
  inv (walk_step bd hd addr cap s i seen a).
Proof.
  intros I Ha. unfold walk_step. destruct (nth_error (f_walks s) i) as [w|] eqn:W; auto.
  assert (Jw : job_ok (w_job w)).
  { destruct I as [_ [_ [_ [_ [Iw _]]]]]. rewrite Forall_forall in Iw. apply Iw. eapply nth_error_In; eauto. }
  destruct (w_job w) as [n h st|n h st]; auto. simpl in Jw.
  destruct (if seen then _ else false); [apply inv_walks; auto; apply Forall_remove, I|].
  destruct (cget n (f_cache s)) as [o|] eqn:C.
  - apply cget_in in C. assert (o = T n) as -> by (apply I; auto). rewrite T_num.
    destruct (0 <? n)%N eqn:Z; [|apply inv_walks; auto; apply Forall_remove, I].
    apply N.ltb_lt in Z. apply inv_continue; auto. apply T_par'; auto.
  - destruct a as [[c recs]|]; auto. destruct Ha as [Ha1 Ha2].
    destruct (iter_to_output _ _ _ _ _ _) as [| |o rest] eqn:R; auto.
    assert (o = T n) as -> by (eapply decoded_true; eauto).
    assert (I1 : inv (newer_tip (set_cache s (cput n (T n) (f_cache s))) (header_of (T n)))).
    { apply inv_newer; [|apply true_output_header, true_T]. apply inv_cache; auto.
      intros m x [E|E]; [congruence|]. apply cdel_in in E. apply I; auto. }
    destruct (0 <? n)%N eqn:Z.
    + apply N.ltb_lt in Z. apply inv_continue; auto. apply T_par'; auto.
    + apply inv_walks; auto. apply Forall_remove, I1.
Qed.

Lemma inv_gossip s p n h : inv s -> h = digest_at n -> inv (gossip s p n h).
Proof.
  intros I H. unfold gossip. destruct (negb (f_first s)).
  - destruct p; [|apply inv_start_walk; auto; apply inv_first; auto].
    apply inv_walks; [apply inv_first; auto|]. apply Forall_app. split; [apply (inv_first s true (f_lastnum s) I)|constructor; auto].
  - destruct (_ <? 6); auto. apply inv_start_walk; [apply inv_first|]; auto.
Qed.

Lemma inv_gap s : inv s -> inv (fill_gap s).
Proof.
  intros I. unfold fill_gap. destruct (f_gap s) as [[[n h] fl]|] eqn:G; auto. destruct (_ <? _)%N; auto.
  destruct (covered _ _ _); auto. apply inv_start_walk; auto. destruct I as [_ [_ [_ [_ [_ [_ [Ia _]]]]]]]. eapply Ia; eauto.
Qed.

Lemma inv_stream_end s i r : inv s -> match r with Some os => Forall true_output os | None => True end -> inv (stream_end s i r).
Proof.
  intros I Hr. unfold stream_end. destruct (nth_error (f_walks s) i) as [w|] eqn:W; auto.
  assert (Jw : job_ok (w_job w)).
  { destruct I as [_ [_ [_ [_ [Iw _]]]]]. rewrite Forall_forall in Iw. apply Iw. eapply nth_error_In; eauto. }
  destruct (w_job w) as [n h st|n h st]; auto. simpl in Jw.
  assert (I1 : inv (set_walks s (remove_nth i (f_walks s)))) by (apply inv_walks; auto; apply Forall_remove, I).
  destruct r as [os|]; [|apply inv_start_walk; auto].
  assert (I2 : inv (set_stage (set_walks s (remove_nth i (f_walks s))) os)) by (apply inv_stage; auto).
  destruct (local _ n) as [o|] eqn:L; auto. apply inv_newer; auto.
  rewrite (local_true _ _ _ I2 L). apply true_output_header, true_T.
Qed.

(** The digest test of the drain always passes on true data. *)
Lemma link_ok t n : true_header (s_last t) -> n = (ch_num (s_last t) + 1)%N ->
  hd (digest_of hd (s_last t)) (out_sub (T n)) n = digest_of hd (header_of (T n)).
Proof.
  intros H ->. unfold digest_of at 2. cbn [header_of ch_parent ch_sub ch_num]. rewrite T_par, T_num.
  unfold FolSpec.digest_at. unfold true_header in H. rewrite H at 1. reflexivity.
Qed.

Definition picked (s : fol) (seen : bool) (n : N) : option (output * bool) :=
  match cget n (f_cache s) with
  | Some o => Some (o, true)
  | None => if seen then option_map (fun o => (o, false)) (local s n) else None
  end.
Lemma picked_true s seen n o b : inv s -> picked s seen n = Some (o, b) -> o = T n.
Proof.
  intros I H. unfold picked in H. destruct (cget n (f_cache s)) as [x|] eqn:C.
  - injection H as <- <-. apply I. apply cget_in; auto.
  - destruct seen; [|discriminate H]. destruct (local s n) as [x|] eqn:L; [|discriminate H]. injection H as <- <-. eapply local_true; eauto.
Qed.

(** What a drain step does in a good state. *)
Lemma drain_cases s seen ok : inv s ->
  drain hd s seen ok = s \/
  exists t n s1, f_strm s = Some t /\ n = (ch_num (s_last t) + 1)%N /\ (n <= ch_num (s_target t))%N /\
    (s1 = s \/ s1 = set_cache s (cdel n (f_cache s))) /\ (exists b, picked s seen n = Some (T n, b)) /\
    ((s_epoch t < epoch_of n)%N /\ drain hd s seen ok = set_strm s None \/
     (epoch_of n <= s_epoch t)%N /\
     let t' := {| s_epoch := s_epoch t; s_last := header_of (T n); s_target := s_target t |} in
     ((n <= f_latest s)%N /\ drain hd s seen ok = set_strm s1 (Some t') \/
      (f_latest s < n)%N /\ drain hd s seen ok = (if ok then set_chan (set_strm s1 (Some t')) (f_chan s ++ [T n]) else fail s1))).
Proof.
  intros I. unfold drain. destruct (f_strm s) as [t|] eqn:St; auto.
  destruct (_ <=? _)%N eqn:Tg; auto. apply N.leb_gt in Tg.
  set (n := (ch_num (s_last t) + 1)%N).
  change (match cget n (f_cache s) with | Some x => Some (x, true) | None => if seen then option_map (fun x => (x, false)) (local s n) else None end) with (picked s seen n).
  destruct (picked s seen n) as [[o b]|] eqn:P; auto.
  pose proof (picked_true _ _ _ _ _ I P) as ->. right.
  exists t, n, (if b then set_cache s (cdel n (f_cache s)) else s).
  split; auto. split; auto. split; [unfold n; lia|]. split; [destruct b; auto|]. split; [eauto|].
  fold (epoch_of n). destruct (s_epoch t <? epoch_of n)%N eqn:E; [left; apply N.ltb_lt in E; auto|]. apply N.ltb_ge in E.
  right. split; auto. cbn zeta. rewrite link_ok; auto; [|apply I; auto]. rewrite N.eqb_refl. cbn [negb]. rewrite T_num.
  destruct (n <=? f_latest s)%N eqn:L; [left; apply N.leb_le in L; auto|]. apply N.leb_gt in L. right. split; auto.
  destruct ok; auto. destruct b; auto.
Qed.

Lemma inv_drain s seen ok : inv s -> inv (drain hd s seen ok).
Proof.
  intros I. destruct (drain_cases s seen ok I) as [->|[t [n [s1 [St [En [Tg [S1 [_ D]]]]]]]]]; auto.
  assert (Tt : true_header (s_target t) /\ s_epoch t = f_epoch s).
  { destruct I as [_ [_ [_ [_ [_ [_ [_ [Im _]]]]]]]]. destruct (Im _ St) as [_ [A B]]. auto. }
  assert (I1 : inv s1).
  { destruct S1 as [->| ->]; auto. apply inv_cache; auto. intros m x H. apply cdel_in in H. apply I; auto. }
  assert (E1 : f_epoch s1 = f_epoch s) by (destruct S1 as [->| ->]; auto).
  assert (I2 : inv (set_strm s1 (Some {| s_epoch := s_epoch t; s_last := header_of (T n); s_target := s_target t |}))).
  { apply inv_strm; auto. intros t' H. injection H as <-. simpl. split; [apply true_output_header, true_T|]. split; [apply Tt|]. rewrite E1. apply Tt. }
  destruct D as [[_ ->]|[_ [[_ ->]|[_ ->]]]]; auto.
  - apply inv_strm; auto. intros t' H; discriminate H.
  - destruct ok; [|apply inv_fail; auto]. apply inv_chan; auto. apply Forall_app. split; [apply I|]. constructor; [apply true_T|auto].
Qed.

(** Saving a true output. *)
Lemma save_cases s n : inv s -> (f_latest s < n)%N ->
  save s (T n) = None \/
  exists l, save s (T n) = Some (set_log s l n) /\ true_pack T (f_epoch s) (f_start s) l (f_sealed s) n /\ epoch_of n = f_epoch s.
Proof.
  intros I Hn. pose proof I as I'. destruct I' as [_ [_ [_ [[[P1 P1'] [P2 [P3 [P4 P5]]]] _]]]].
  unfold save. rewrite T_num. destruct (n <=? f_latest s)%N eqn:L; [apply N.leb_le in L; lia|].
  fold (epoch_of n). destruct (epoch_of n =? f_epoch s)%N eqn:E; cbn [negb]; auto. apply N.eqb_eq in E.
  assert (Keep : N.to_nat (n - f_start s) < length (f_log s) -> true_pack T (f_epoch s) (f_start s) (f_log s) (f_sealed s) n).
  { intros H. split; [lia|]. split; [lia|]. split; auto. }
  destruct (f_sealed s).
  - destruct ((f_start s <=? n)%N && _)%bool eqn:K; auto. right. apply andb_true_iff in K. destruct K as [_ K]. apply Nat.ltb_lt in K. eauto.
  - destruct (_ <? length (f_log s)) eqn:K; [apply Nat.ltb_lt in K; right; eauto|]. apply Nat.ltb_ge in K.
    destruct (_ =? length (f_log s)) eqn:K2; auto. apply Nat.eqb_eq in K2. right. eexists. split; [reflexivity|]. split; auto.
    split; [lia|]. rewrite app_length. cbn [length]. split; [lia|]. split; [|split; [auto|intros X; discriminate X]].
    intros i o Hi. destruct (Nat.lt_ge_cases i (length (f_log s))) as [H|H].
    + rewrite nth_error_app1 in Hi by lia. auto.
    + rewrite nth_error_app2 in Hi by lia. destruct (i - length (f_log s)) as [|j] eqn:J; simpl in Hi; [|destruct j; discriminate Hi].
      injection Hi as <-. split; [f_equal; lia|exact E].
Qed.

Lemma inv_log s l n : inv s -> true_pack T (f_epoch s) (f_start s) l (f_sealed s) n -> inv (set_log s l n).
Proof. intros I H. pieces I. unfold inv, set_log; cbn -[true_pack]. nine. Qed.

Lemma handle_cases s : inv s ->
  (f_chan s = [] /\ handle s = (s, None)) \/
  exists o rest, f_chan s = o :: rest /\ true_output o /\
    ((f_epoch s < sd_epoch (out_sub o))%N /\ handle s = (set_chan s rest, None) \/
     (sd_epoch (out_sub o) <= f_epoch s)%N /\
     (handle s = (fail (set_chan s rest), None) \/
      (f_latest s < out_num o)%N /\ exists l stg, (stg = f_stage s \/ stg = []) /\ true_pack T (f_epoch s) (f_start s) l (f_sealed s) (out_num o) /\
         handle s = (set_stage (set_log (set_chan s rest) l (out_num o)) stg, Some o))).
Proof.
  intros I. unfold handle. destruct (f_chan s) as [|o rest] eqn:C; auto. right. exists o, rest. split; auto.
  assert (To : true_output o /\ Forall true_output rest).
  { destruct I as [_ [_ [_ [_ [_ [_ [_ [_ Ic]]]]]]]]. rewrite C in Ic. inversion Ic; auto. }
  destruct To as [To Tr]. split; auto.
  destruct (f_epoch s <? _)%N eqn:E; [left; apply N.ltb_lt in E; auto|]. apply N.ltb_ge in E. right. split; auto.
  destruct (N.le_gt_cases (out_num o) (f_latest s)) as [L|L].
  { left. unfold save. cbn [set_chan f_latest]. destruct (out_num o <=? f_latest s)%N eqn:X; auto. apply N.leb_gt in X. lia. }
  assert (I1 : inv (set_chan s rest)) by (apply inv_chan; auto).
  pose proof (save_cases (set_chan s rest) (out_num o) I1 L) as Sv. unfold FolSpec.true_output in To. rewrite <- To in Sv.
  destruct Sv as [->|[l [-> [Pk _]]]]; [auto|].
  right. split; [auto|]. cbn [set_chan f_epoch f_start f_sealed] in Pk.
  destruct (match stage_final _ with Some n => _ | None => false end).
  - exists l, []. split; auto.
  - exists l, (f_stage s). split; auto.
Qed.

Lemma inv_handle s : inv s -> inv (fst (handle s)).
Proof.
  intros I. destruct (handle_cases s I) as [[_ ->]|[o [rest [C [To D]]]]]; auto.
  assert (Tr : Forall true_output rest).
  { destruct I as [_ [_ [_ [_ [_ [_ [_ [_ Ic]]]]]]]]. rewrite C in Ic. inversion Ic; auto. }
  assert (I1 : inv (set_chan s rest)) by (apply inv_chan; auto).
  destruct D as [[_ ->]|[_ [->|[_ [l [stg [Hs [Pk ->]]]]]]]]; auto.
  - apply inv_fail; auto.
  - cbn [fst]. apply inv_stage; [apply inv_log; auto|]. cbn. destruct Hs as [->| ->]; auto. apply I.
Qed.

Lemma inv_open s e pk : inv s ->
  match pk with None => e = f_epoch s | Some (st, os, sealed) => true_pack T e st os sealed (f_latest s) end ->
  inv (open_pack s e pk) /\ f_epoch (open_pack s e pk) = e /\ f_latest (open_pack s e pk) = f_latest s.
Proof.
  intros I H. pieces I. unfold open_pack. destruct pk as [[[st os] sealed]|].
  - split; [|auto]. unfold inv; cbn -[true_pack]. split; auto. split; [apply Forall_app; split; auto|].
    { apply Forall_forall. intros o Ho. destruct (In_nth_error _ _ Ho) as [i Hi]. destruct Ip as [_ [_ [P3 _]]].
      destruct (P3 _ _ Hi) as [-> _]. apply true_T. }
    split; [destruct (_ <? e)%N; auto|]. split; [exact H|]. refine (conj _ (conj _ (conj _ (conj _ _)))); auto. intros t X; discriminate X.
  - subst e. split; [|auto]. unfold inv; cbn -[true_pack]. nine. intros t X; discriminate X.
Qed.

Lemma inv_step s e : inv s -> good_event bd hd addr T s e -> inv (fst (step s e)).
Proof.
  intros I G. destruct e as [p n h|i seen a|i|i r|os|n| | | |seen ok| | |e pk from|m l]; cbn [FolModel.step fst].
  - apply inv_gossip; auto.
  - apply inv_walk; auto.
  - apply inv_walks; auto. apply Forall_remove, I.
  - apply inv_stream_end; auto.
  - pieces I. unfold inv, set_static; cbn -[true_pack]. split; auto. split; [apply Forall_app; auto|]. refine (conj _ (conj _ (conj _ (conj _ (conj _ (conj _ _)))))); auto.
  - destruct (local s n) as [o|] eqn:L; auto. apply inv_newer; auto. rewrite (local_true _ _ _ I L). apply true_output_header, true_T.
  - destruct (f_strm s) as [t|] eqn:St; auto. destruct (_ <? _)%N; auto.
    assert (Tt : true_header (s_target t)) by (apply I; auto).
    pieces I. unfold inv, set_gap; cbn -[true_pack]. nine. intros n h fl H. injection H as <- <- <-.
    unfold FolSpec.digest_at. unfold true_header in Tt. rewrite Tt at 1. reflexivity.
  - apply inv_gap; auto.
  - destruct (f_strm s) as [t|] eqn:St; auto. apply inv_strm; auto. intros t' H. injection H as <-. simpl.
    destruct I as [_ [_ [_ [_ [_ [It [_ [Im _]]]]]]]]. destruct (Im _ St) as [A [B C]]. split; auto. split; auto.
    destruct (f_tip s) as [h|] eqn:Tp; [apply It; auto|apply true_H0].
  - apply inv_drain; auto.
  - apply inv_handle; auto.
  - apply inv_chan; auto. destruct I as [_ [_ [_ [_ [_ [_ [_ [_ Ic]]]]]]]]. destruct (f_chan s); simpl; auto. inversion Ic; auto.
  - destruct G as [Gf Gp]. destruct (inv_open s e pk I Gp) as [Io [Ee El]].
    apply inv_strm; auto. intros t H. injection H as <-. simpl. split; [apply header_at_true; auto|]. split; auto.
    destruct (f_tip (open_pack s e pk)) as [h|] eqn:Tp; [apply Io; auto|apply true_H0].
  - destruct G as [G1 [G2 [G3 G4]]]. pieces I. unfold inv; cbn -[true_pack].
    split; [intros ? ? []|]. split; auto. split; [constructor|]. split.
    { destruct Ip as [P1 [P2 [P3 [P4 P5]]]]. split; [lia|]. split; [rewrite firstn_length; lia|].
      split; [|split; [auto|intros Sl; rewrite firstn_length; specialize (G4 Sl); rewrite Nat.min_r by lia; auto]].
      intros i o Hi. rewrite nth_error_firstn in Hi. destruct (i <? m); [auto|discriminate Hi]. }
    split; [constructor|]. split; [intros h X; discriminate X|]. split; [intros ? ? ? X; discriminate X|].
    split; [intros t X; discriminate X|constructor].
Qed.

Lemma inv_booted s : booted T s -> inv s.
Proof.
  intros [B1 [B2 [B3 [B4 [B5 [B6 [B7 [B8 [B9 B10]]]]]]]]]. unfold inv. rewrite B1, B2, B3, B4, B5, B6, B7.
  split; [intros ? ? []|]. split; auto. split; auto. split; auto. split; auto. split; [intros ? X; discriminate X|].
  split; [intros ? ? ? X; discriminate X|]. split; [intros ? X; discriminate X|auto].
Qed.

Lemma inv_run es : forall s, inv s -> good_history bd hd addr cap H0 T s es -> inv (fst (run s es)).
Proof.
  induction es as [|e t IH]; intros s I G; simpl; auto. destruct G as [G1 G2].
  specialize (IH _ (inv_step s e I G1) G2). destruct (step s e) as [s1 o]. simpl in *.
  destruct (run s1 t) as [s2 os]. auto.
Qed.

(* ---------- in order, without gaps ---------- *)
Lemma from_on_S a k : from_on a (S k) = T a :: from_on (a + 1)%N k.
Proof.
  unfold FolSpec.from_on. cbn [seq map]. f_equal; [f_equal; lia|]. rewrite <- seq_shift, map_map. apply map_ext. intros i. f_equal. lia.
Qed.
Lemma from_on_snoc a k : from_on a (S k) = from_on a k ++ [T (a + N.of_nat k)%N].
Proof. unfold FolSpec.from_on. rewrite seq_S, map_app. reflexivity. Qed.
Lemma from_on_app a j k : from_on a (j + k) = from_on a j ++ from_on (a + N.of_nat j)%N k.
Proof.
  revert a. induction j as [|j IH]; intros a; [replace (a + N.of_nat 0)%N with a by lia; auto|].
  cbn [Nat.add]. rewrite !from_on_S, IH. simpl. do 2 f_equal. f_equal. lia.
Qed.
Lemma from_on_length a k : length (from_on a k) = k.
Proof. unfold FolSpec.from_on. rewrite map_length, seq_length. auto. Qed.

(** The channel holds exactly the outputs between the last saved and the last drained one. *)
Definition queue (s : fol) : Prop :=
  f_err s = false /\
  exists c, f_chan s = from_on (f_latest s + 1) c /\
    (forall i, i < c -> (epoch_of (f_latest s + 1 + N.of_nat i) <= f_epoch s)%N) /\
    (forall t, f_strm s = Some t -> c = N.to_nat (ch_num (s_last t) - f_latest s)).

Lemma queue_same s s' : f_err s' = f_err s -> f_chan s' = f_chan s -> f_latest s' = f_latest s -> f_epoch s' = f_epoch s ->
  f_strm s' = f_strm s -> queue s -> queue s'.
Proof.
  intros E1 E2 E3 E4 E5 [Q1 [c [Q2 [Q3 Q4]]]]. split; [congruence|]. exists c. rewrite E2, E3, E4, E5. auto.
Qed.

Lemma queue_drain s seen : inv s -> queue s -> queue (drain hd s seen true).
Proof.
  intros I Q. destruct (drain_cases s seen true I) as [->|[t [n [s1 [St [En [Tg [S1 [_ D]]]]]]]]]; auto.
  destruct Q as [Q1 [c [Q2 [Q3 Q4]]]]. specialize (Q4 _ St).
  assert (Se : s_epoch t = f_epoch s) by (apply I; auto).
  assert (E : f_err s1 = false /\ f_chan s1 = f_chan s /\ f_latest s1 = f_latest s /\ f_epoch s1 = f_epoch s) by (destruct S1 as [->| ->]; auto).
  destruct E as [Ee [Ec [El Ep]]].
  destruct D as [[_ ->]|[Le [[L ->]|[L ->]]]].
  - split; auto. exists c. cbn [set_strm f_chan f_latest f_epoch f_strm]. split; auto. split; auto. intros t' X; discriminate X.
  - split; auto. exists c. cbn [set_strm f_chan f_latest f_epoch f_strm]. rewrite Ec, El, Ep. split; auto. split; auto.
    intros t' X. injection X as <-. cbn [s_last header_of ch_num]. rewrite T_num. lia.
  - cbn zeta. split; auto. exists (S c). cbn [set_strm set_chan f_chan f_latest f_epoch f_strm]. rewrite El, Ep.
    assert (Hn : n = (f_latest s + 1 + N.of_nat c)%N) by lia.
    split; [rewrite from_on_snoc, Q2, Hn; auto|]. split.
    + intros i Hi. destruct (Nat.eq_dec i c) as [->|Hc]; [rewrite <- Hn; lia|apply Q3; lia].
    + intros t' X. injection X as <-. cbn [s_last header_of ch_num]. rewrite T_num. lia.
Qed.

(** A save that can be made is made. *)
Lemma save_next s : inv s -> (epoch_of (f_latest s + 1) <= f_epoch s)%N -> save s (T (f_latest s + 1)) <> None.
Proof.
  intros [_ [_ [_ [[[P1 P1'] [P2 [P3 [P4 P5]]]] _]]]] He. unfold save. rewrite T_num.
  destruct (_ <=? f_latest s)%N eqn:L; [apply N.leb_le in L; lia|].
  assert (E : epoch_of (f_latest s + 1) = f_epoch s).
  { pose proof (epoch_le (f_start s) (f_latest s + 1) ltac:(lia)). lia. }
  fold (epoch_of (f_latest s + 1)). rewrite E, N.eqb_refl. cbn [negb].
  destruct (f_sealed s) eqn:Sl.
  - assert (X : (f_start s <=? f_latest s + 1)%N = true) by (apply N.leb_le; lia). rewrite X. cbn [andb].
    destruct (_ <? length (f_log s)) eqn:K; [intros Z; discriminate Z|]. apply Nat.ltb_ge in K. exfalso.
    specialize (P5 eq_refl). replace (f_start s + N.of_nat (length (f_log s)))%N with (f_latest s + 1)%N in P5 by lia. lia.
  - destruct (_ <? length (f_log s)) eqn:K; [intros Z; discriminate Z|]. apply Nat.ltb_ge in K.
    destruct (_ =? length (f_log s)) eqn:K2; [intros Z; discriminate Z|]. apply Nat.eqb_neq in K2. lia.
Qed.

Definition frame (s s' : fol) : Prop :=
  f_err s' = f_err s /\ f_chan s' = f_chan s /\ f_latest s' = f_latest s /\ f_epoch s' = f_epoch s /\ f_strm s' = f_strm s.
Lemma frame_refl s : frame s s. Proof. repeat (split; auto). Qed.
Lemma frame_newer s s' h : frame s s' -> frame s (newer_tip s' h).
Proof. unfold newer_tip. destruct (_ <? _)%N; auto. Qed.
Lemma frame_walks s s' w : frame s s' -> frame s (set_walks s' w). Proof. auto. Qed.
Lemma frame_start s s' a b c : frame s s' -> frame s (start_walk s' a b c).
Proof. unfold start_walk. destruct (_ <? _)%N; auto. Qed.
Lemma frame_continue s s' i w a b c : frame s s' -> frame s (continue_walk s' i w a b c).
Proof. unfold continue_walk. destruct (_ <? _)%N; auto. Qed.
Lemma frame_gossip s p n h : frame s (gossip s p n h).
Proof.
  unfold gossip. destruct (negb _); [destruct p; [apply frame_walks; exact (frame_refl s)|apply frame_start; exact (frame_refl s)]|].
  destruct (_ <? 6); [apply frame_start|]; exact (frame_refl s).
Qed.
Lemma frame_walk s i seen a : frame s (walk_step bd hd addr cap s i seen a).
Proof.
  unfold walk_step. destruct (nth_error _ i) as [w|]; [|exact (frame_refl s)]. destruct (w_job w) as [n h st|]; [|exact (frame_refl s)].
  destruct (if seen then _ else false); [exact (frame_refl s)|]. destruct (cget n _) as [o|].
  - destruct (0 <? _)%N; [apply frame_continue|]; exact (frame_refl s).
  - destruct a as [[c recs]|]; [|exact (frame_refl s)]. destruct (iter_to_output _ _ _ _ _ _) as [| |o rest]; try exact (frame_refl s).
    assert (F : frame s (newer_tip (set_cache s (cput n o (f_cache s))) (header_of o))) by (apply frame_newer; exact (frame_refl s)).
    destruct (0 <? n)%N; [apply frame_continue|]; auto.
Qed.
Lemma frame_stream s i r : frame s (stream_end s i r).
Proof.
  unfold stream_end. destruct (nth_error _ i) as [w|]; [|exact (frame_refl s)]. destruct (w_job w) as [n h st|n h st]; [exact (frame_refl s)|].
  destruct r as [os|]; [|apply frame_start; exact (frame_refl s)]. destruct (local _ n); [apply frame_newer|]; exact (frame_refl s).
Qed.
Lemma frame_gap s : frame s (fill_gap s).
Proof.
  unfold fill_gap. destruct (f_gap s) as [[[n h] fl]|]; [|exact (frame_refl s)]. destruct (_ <? _)%N; [exact (frame_refl s)|].
  destruct (covered _ _ _); [|apply frame_start]; exact (frame_refl s).
Qed.
Lemma queue_frame s s' : frame s s' -> queue s -> queue s'.
Proof. intros [A [B [C [D E]]]]. apply queue_same; auto. Qed.

(** One calm step keeps the queue; the only output ever saved is the next one. *)
Lemma queue_handle s : inv s -> queue s ->
  queue (fst (handle s)) /\
  match snd (handle s) with
  | Some o => o = T (f_latest s + 1) /\ f_latest (fst (handle s)) = (f_latest s + 1)%N
  | None => f_latest (fst (handle s)) = f_latest s /\ f_chan s = []
  end.
Proof.
  intros I Q. pose proof Q as [Q1 [c [Q2 [Q3 Q4]]]]. destruct (handle_cases s I) as [[C E]|[o [rest [C [To D]]]]].
  { rewrite E. simpl. auto. }
  destruct c as [|c]; [rewrite C in Q2; discriminate Q2|]. rewrite C, from_on_S in Q2. injection Q2 as Eo Er.
  assert (He : (epoch_of (f_latest s + 1) <= f_epoch s)%N) by (specialize (Q3 0 ltac:(lia)); replace (f_latest s + 1 + N.of_nat 0)%N with (f_latest s + 1)%N in Q3 by lia; auto).
  assert (Tr : Forall true_output rest).
  { destruct I as [_ [_ [_ [_ [_ [_ [_ [_ Ic]]]]]]]]. rewrite C in Ic. inversion Ic; auto. }
  assert (I1 : inv (set_chan s rest)) by (apply inv_chan; auto).
  destruct D as [[X _]|[_ [X|[L [l [stg [Hs [Pk X]]]]]]]].
  - rewrite Eo in X. change (f_epoch s < epoch_of (f_latest s + 1))%N in X. lia.
  - exfalso. apply (save_next (set_chan s rest) I1 He). cbn [set_chan f_latest]. rewrite <- Eo.
    unfold handle in X. rewrite C in X. destruct (f_epoch s <? _)%N eqn:Y.
    { apply N.ltb_lt in Y. rewrite Eo in Y. change (f_epoch s < epoch_of (f_latest s + 1))%N in Y. lia. }
    destruct (save (set_chan s rest) o); [discriminate X|auto].
  - rewrite X. cbn [fst snd]. rewrite Eo, T_num. cbn [set_stage set_log set_chan f_latest f_err f_chan f_epoch f_strm].
    split; [|auto]. split; [auto|]. exists c. cbn [set_stage set_log set_chan f_latest f_err f_chan f_epoch f_strm].
    split; [exact Er|]. split.
    + intros i Hi. specialize (Q3 (S i) ltac:(lia)). replace (f_latest s + 1 + 1 + N.of_nat i)%N with (f_latest s + 1 + N.of_nat (S i))%N by lia. auto.
    + intros t Ht. specialize (Q4 t Ht). lia.
Qed.

Lemma queue_step s e : inv s -> queue s -> good_event bd hd addr T s e -> calm e -> queue (fst (step s e)).
Proof.
  intros I Q G Cm. destruct e as [p n h|i seen a|i|i r|os|n| | | |seen ok| | |e pk from|m l]; cbn [FolModel.step fst].
  - apply (queue_frame s); auto. apply frame_gossip.
  - apply (queue_frame s); auto. apply frame_walk.
  - exact Q.
  - apply (queue_frame s); auto. apply frame_stream.
  - exact Q.
  - apply (queue_frame s); auto. destruct (local s n); [apply frame_newer|]; exact (frame_refl s).
  - destruct (f_strm s); [|exact Q]. destruct (_ <? _)%N; exact Q.
  - apply (queue_frame s); auto. apply frame_gap.
  - destruct (f_strm s) as [t|] eqn:St; [|exact Q]. destruct Q as [Q1 [c [Q2 [Q3 Q4]]]]. split; auto. exists c. split; auto. split; auto.
    intros t' H. injection H as <-. exact (Q4 t St).
  - destruct ok; [|destruct Cm]. apply queue_drain; auto.
  - apply queue_handle; auto.
  - destruct Cm.
  - destruct G as [Gf Gp]. destruct (inv_open s e pk I Gp) as [Io [Ee El]].
    destruct (header_at_true _ from Io) as [_ Hn].
    split; [destruct pk as [[[? ?] ?]|]; reflexivity|]. exists 0.
    split; [destruct pk as [[[? ?] ?]|]; reflexivity|]. split; [intros i Hi; lia|].
    intros t H. cbn [set_strm f_strm] in H. injection H as <-. cbn [s_last set_strm f_latest]. rewrite El. lia.
  - split; auto. exists 0. split; auto. split; [intros i Hi; lia|]. intros t H; discriminate H.
Qed.

Lemma queue_booted s : booted T s -> queue s.
Proof.
  intros [B1 [B2 [B3 [B4 [B5 [B6 [B7 [B8 [B9 B10]]]]]]]]]. split; auto. exists 0. rewrite B6, B7. split; auto. split; [intros; lia|intros ? X; discriminate X].
Qed.

(** What a step saves. *)
Lemma latest_step s e : inv s -> queue s -> good_event bd hd addr T s e -> calm e ->
  match snd (step s e) with
  | Some o => o = T (f_latest s + 1) /\ f_latest (fst (step s e)) = (f_latest s + 1)%N
  | None => match e with Crash _ l => f_latest (fst (step s e)) = l | _ => f_latest (fst (step s e)) = f_latest s end
  end.
Proof.
  intros I Q G Cm. destruct e as [p n h|i seen a|i|i r|os|n| | | |seen ok| | |e pk from|m l]; cbn [FolModel.step fst snd]; auto.
  - apply (frame_gossip s p n h).
  - apply (frame_walk s i seen a).
  - apply (frame_stream s i r).
  - destruct (local s n) as [o|]; auto. apply (frame_newer s s (header_of o)); exact (frame_refl s).
  - destruct (f_strm s); auto. destruct (_ <? _)%N; auto.
  - apply (frame_gap s).
  - destruct (f_strm s); auto.
  - destruct (drain_cases s seen ok I) as [->|[t [n [s1 [_ [_ [_ [S1 [_ D]]]]]]]]]; auto.
    assert (El : f_latest s1 = f_latest s) by (destruct S1 as [->| ->]; auto).
    destruct D as [[_ ->]|[_ [[_ ->]|[_ ->]]]]; auto. destruct ok; auto.
  - destruct (queue_handle s I Q) as [_ H]. destruct (snd (handle s)); [auto|]. apply H.
  - destruct pk as [[[? ?] ?]|]; reflexivity.
Qed.

Lemma run_cons s e t : run s (e :: t) =
  (fst (run (fst (step s e)) t), match snd (step s e) with Some x => x :: snd (run (fst (step s e)) t) | None => snd (run (fst (step s e)) t) end).
Proof. simpl. destruct (step s e) as [s1 o]. simpl. destruct (run s1 t) as [s2 os]. destruct o; auto. Qed.

Lemma run_in_order es : forall s, inv s -> queue s -> good_history bd hd addr cap H0 T s es -> Forall calm es -> Forall no_crash es ->
  exists k, snd (run s es) = from_on (f_latest s + 1) k /\ f_latest (fst (run s es)) = (f_latest s + N.of_nat k)%N.
Proof.
  induction es as [|e t IH]; intros s I Q G Cm Nc.
  { exists 0. simpl. split; auto. lia. }
  destruct G as [G1 G2]. inversion Cm; subst. inversion Nc; subst.
  pose proof (inv_step s e I G1) as I1. pose proof (queue_step s e I Q G1 ltac:(auto)) as Q1.
  pose proof (latest_step s e I Q G1 ltac:(auto)) as L.
  destruct (IH _ I1 Q1 G2 ltac:(auto) ltac:(auto)) as [k [E1 E2]]. rewrite run_cons. cbn [fst snd].
  destruct (snd (step s e)) as [o|].
  - destruct L as [-> L]. exists (S k). rewrite from_on_S, E1, E2, L. split; [auto|lia].
  - assert (L' : f_latest (fst (step s e)) = f_latest s) by (destruct e; auto; simpl in *; tauto).
    exists k. rewrite E1, E2, L'. auto.
Qed.

Lemma run_no_error es : forall s, inv s -> queue s -> good_history bd hd addr cap H0 T s es -> Forall calm es -> f_err (fst (run s es)) = false.
Proof.
  induction es as [|e t IH]; intros s I Q G Cm; [apply Q|].
  destruct G as [G1 G2]. inversion Cm; subst. rewrite run_cons. cbn [fst].
  apply IH; [apply inv_step|apply queue_step| |]; auto.
Qed.

(* ---------- safety without calm ---------- *)
Lemma last_default {A} (l : list A) a b : l <> [] -> last l a = last l b.
Proof. induction l as [|x l IH]; intros H; [congruence|]. destruct l; auto. cbn [last]. apply IH. intros X; discriminate X. Qed.

Lemma latest_step_any s e : inv s -> good_event bd hd addr T s e ->
  match snd (step s e) with
  | Some o => true_output o /\ (f_latest s < out_num o)%N /\ f_latest (fst (step s e)) = out_num o
  | None => match e with Crash _ l => f_latest (fst (step s e)) = l | _ => f_latest (fst (step s e)) = f_latest s end
  end.
Proof.
  intros I G. destruct e as [p n h|i seen a|i|i r|os|n| | | |seen ok| | |e pk from|m l]; cbn [FolModel.step fst snd]; auto.
  - apply (frame_gossip s p n h).
  - apply (frame_walk s i seen a).
  - apply (frame_stream s i r).
  - destruct (local s n) as [o|]; auto. apply (frame_newer s s (header_of o)); exact (frame_refl s).
  - destruct (f_strm s); auto. destruct (_ <? _)%N; auto.
  - apply (frame_gap s).
  - destruct (f_strm s); auto.
  - destruct (drain_cases s seen ok I) as [->|[t [n [s1 [_ [_ [_ [S1 [_ D]]]]]]]]]; auto.
    assert (El : f_latest s1 = f_latest s) by (destruct S1 as [->| ->]; auto).
    destruct D as [[_ ->]|[_ [[_ ->]|[_ ->]]]]; auto. destruct ok; auto.
  - destruct (handle_cases s I) as [[_ ->]|[o [rest [C [To D]]]]]; cbn [fst snd]; auto.
    destruct D as [[_ ->]|[_ [->|[L [l [stg [_ [_ ->]]]]]]]]; cbn [fst snd]; auto.
  - destruct pk as [[[? ?] ?]|]; reflexivity.
Qed.

Lemma run_any es : forall s, inv s -> good_history bd hd addr cap H0 T s es -> Forall no_crash es ->
  exists ns, snd (run s es) = map T ns /\ StronglySorted N.lt (f_latest s :: ns) /\ f_latest (fst (run s es)) = last ns (f_latest s).
Proof.
  induction es as [|e t IH]; intros s I G Nc.
  { exists []. split; [reflexivity|]. split; [|reflexivity]. constructor; constructor. }
  destruct G as [G1 G2]. inversion Nc; subst. pose proof (inv_step s e I G1) as I1.
  pose proof (latest_step_any s e I G1) as L. destruct (IH _ I1 G2 ltac:(auto)) as [ns [E1 [E2 E3]]].
  rewrite run_cons. cbn [fst snd]. destruct (snd (step s e)) as [o|].
  - destruct L as [To [Lt L]]. rewrite L in E2, E3. exists (out_num o :: ns). rewrite E1. cbn [map]. rewrite <- To. split; auto. split.
    + constructor; auto. constructor; auto. inversion E2; subst. eapply Forall_impl; [|eassumption]. intros x Hx. simpl in Hx. lia.
    + rewrite E3. destruct ns as [|n ns]; auto. apply (last_default (n :: ns)). intros X; discriminate X.
  - assert (L' : f_latest (fst (step s e)) = f_latest s) by (destruct e; auto; simpl in *; tauto).
    rewrite L' in *. exists ns. auto.
Qed.

(* ---------- progress of the drain ---------- *)
Definition available (s : fol) (n : N) : Prop := exists o, cget n (f_cache s) = Some o \/ local s n = Some o.

Lemma drain_one s t : inv s -> f_strm s = Some t -> (ch_num (s_last t) < ch_num (s_target t))%N ->
  available s (ch_num (s_last t) + 1) -> (epoch_of (ch_num (s_last t) + 1) <= f_epoch s)%N ->
  f_strm (drain hd s true true) = Some {| s_epoch := s_epoch t; s_last := header_of (T (ch_num (s_last t) + 1)); s_target := s_target t |} /\
  (forall n, n <> (ch_num (s_last t) + 1)%N -> available s n -> available (drain hd s true true) n) /\
  f_epoch (drain hd s true true) = f_epoch s /\ f_latest (drain hd s true true) = f_latest s.
Proof.
  intros I St Lt Av Ep. set (n := (ch_num (s_last t) + 1)%N) in *.
  assert (Se : s_epoch t = f_epoch s) by (apply I; auto).
  assert (P : exists b, picked s true n = Some (T n, b)).
  { destruct Av as [o Ho]. unfold picked. destruct (cget n (f_cache s)) as [x|] eqn:C.
    - exists true. rewrite (proj1 I n x) by (apply cget_in; auto). auto.
    - destruct Ho as [Ho|Ho]; [discriminate Ho|]. rewrite Ho. exists false. simpl. rewrite (local_true s n o I Ho). auto. }
  destruct P as [b P].
  assert (D : drain hd s true true =
    (let s1 := if b then set_cache s (cdel n (f_cache s)) else s in
     let s2 := set_strm s1 (Some {| s_epoch := s_epoch t; s_last := header_of (T n); s_target := s_target t |}) in
     if (n <=? f_latest s)%N then s2 else set_chan s2 (f_chan s2 ++ [T n]))).
  { unfold drain. rewrite St. destruct (_ <=? _)%N eqn:X; [apply N.leb_le in X; lia|]. fold n.
    change (match cget n (f_cache s) with | Some x => Some (x, true) | None => option_map (fun x => (x, false)) (local s n) end) with (picked s true n).
    rewrite P. fold (epoch_of n). destruct (s_epoch t <? epoch_of n)%N eqn:Y; [apply N.ltb_lt in Y; lia|].
    rewrite link_ok; auto; [|apply I; auto]. rewrite N.eqb_refl. cbn [negb]. rewrite T_num. reflexivity. }
  rewrite D. cbn zeta.
  assert (Loc : forall m c, local (set_cache s c) m = local s m) by reflexivity.
  assert (Av' : forall m, m <> n -> available s m -> available (if b then set_cache s (cdel n (f_cache s)) else s) m).
  { intros m Hm [o Ho]. destruct b; [|exists o; auto]. exists o. cbn [set_cache f_cache]. rewrite cget_cdel.
    destruct (n =? m)%N eqn:X; [apply N.eqb_eq in X; congruence|]. destruct Ho as [Ho|Ho]; [left; auto|right; exact Ho]. }
  split; [destruct (_ <=? _)%N; reflexivity|]. split.
  - intros m Hm A. specialize (Av' m Hm A). destruct (_ <=? _)%N; exact Av'.
  - destruct (_ <=? _)%N, b; auto.
Qed.

Lemma run_app s a b : run s (a ++ b) = (fst (run (fst (run s a)) b), snd (run s a) ++ snd (run (fst (run s a)) b)).
Proof.
  revert s. induction a as [|e a IH]; intros s; [simpl; destruct (run s b); auto|].
  cbn [app]. rewrite !run_cons, IH. cbn [fst snd]. destruct (snd (step s e)); auto.
Qed.

Lemma drain_all k : forall s t, inv s -> queue s -> f_strm s = Some t ->
  ch_num (s_target t) = (ch_num (s_last t) + N.of_nat k)%N ->
  (forall n, (ch_num (s_last t) < n <= ch_num (s_target t))%N -> available s n) ->
  (epoch_of (ch_num (s_target t)) <= f_epoch s)%N ->
  let r := run s (repeat (Drain true true) k) in
  inv (fst r) /\ queue (fst r) /\ f_latest (fst r) = f_latest s /\ snd r = [] /\
  exists t', f_strm (fst r) = Some t' /\ ch_num (s_last t') = ch_num (s_target t).
Proof.
  induction k as [|k IH]; intros s t I Q St Hk Av Ep.
  { simpl. refine (conj I (conj Q (conj _ (conj _ _)))); auto. exists t. split; auto. lia. }
  cbn zeta. cbn [repeat]. rewrite run_cons. cbn [FolModel.step fst snd].
  assert (Ep1 : (epoch_of (ch_num (s_last t) + 1) <= f_epoch s)%N).
  { pose proof (epoch_le (ch_num (s_last t) + 1) (ch_num (s_target t)) ltac:(lia)). lia. }
  destruct (drain_one s t I St ltac:(lia) (Av (ch_num (s_last t) + 1)%N ltac:(lia)) Ep1) as [D1 [D2 [D3 D4]]].
  pose proof (inv_drain s true true I) as I1. pose proof (queue_drain s true I Q) as Q1.
  destruct (IH _ _ I1 Q1 D1) as [R1 [R2 [R3 [R4 R5]]]].
  - cbn [s_target s_last header_of ch_num]. rewrite T_num. lia.
  - cbn [s_target s_last header_of ch_num]. rewrite T_num. intros n Hn. apply D2; [lia|]. apply Av. lia.
  - rewrite D3. cbn [s_target]. auto.
  - refine (conj R1 (conj R2 (conj _ (conj R4 R5)))). rewrite R3. exact D4.
Qed.

Lemma handle_all c : forall s, inv s -> queue s -> length (f_chan s) = c ->
  let r := run s (repeat Handle c) in snd r = from_on (f_latest s + 1) c /\ f_latest (fst r) = (f_latest s + N.of_nat c)%N.
Proof.
  induction c as [|c IH]; intros s I Q Hc; [simpl; split; auto; lia|].
  cbn zeta. cbn [repeat]. rewrite run_cons. cbn [FolModel.step fst snd].
  destruct (queue_handle s I Q) as [Q1 H]. pose proof (inv_handle s I) as I1.
  assert (Hl : length (f_chan (fst (handle s))) = c).
  { destruct Q as [_ [c' [Ec _]]]. destruct (f_chan s) as [|o rest] eqn:C; [discriminate Hc|]. injection Hc as Hc.
    unfold handle. rewrite C. destruct (f_epoch s <? _)%N; [exact Hc|]. unfold save.
    repeat match goal with |- context [if ?x then _ else _] => destruct x end; exact Hc. }
  destruct (snd (handle s)) as [o|]; [|destruct H as [_ H]; rewrite H in Hc; discriminate Hc].
  destruct H as [-> H]. destruct (IH _ I1 Q1 Hl) as [R1 R2]. rewrite R1, R2, H, from_on_S. split; [auto|lia].
Qed.

Lemma progress s t : inv s -> queue s -> f_strm s = Some t -> f_chan s = [] ->
  (ch_num (s_last t) <= f_latest s <= ch_num (s_target t))%N ->
  (forall n, (ch_num (s_last t) < n <= ch_num (s_target t))%N -> available s n) ->
  (epoch_of (ch_num (s_target t)) <= f_epoch s)%N ->
  exists es, Forall calm es /\ Forall no_crash es /\ good_history bd hd addr cap H0 T s es /\ f_latest (fst (run s es)) = ch_num (s_target t).
Proof.
  intros I Q St Ch0 Hl Av Ep. set (k := N.to_nat (ch_num (s_target t) - ch_num (s_last t))). set (c := N.to_nat (ch_num (s_target t) - f_latest s)).
  exists (repeat (Drain true true) k ++ repeat Handle c).
  assert (Fa : forall (P : ev -> Prop), P (Drain true true) -> P Handle -> Forall P (repeat (Drain true true) k ++ repeat Handle c)).
  { intros P A B. apply Forall_app. split; apply Forall_forall; intros x Hx; apply repeat_spec in Hx; subst x; auto. }
  split; [apply Fa; exact Logic.I|]. split; [apply Fa; exact Logic.I|]. split.
  { assert (G : forall l s, Forall (fun e => e = Drain true true \/ e = Handle) l -> good_history bd hd addr cap H0 T s l).
    { clear. induction l as [|e l IH]; intros s F; simpl; auto. inversion F as [|? ? Fe Fl]; subst. split; [|apply IH; auto]. destruct Fe as [-> | ->]; exact Logic.I. }
    apply G, Fa; auto. }
  destruct (drain_all k s t I Q St ltac:(unfold k; lia) Av Ep) as [R1 [R2 [R3 [R4 [t' [R5 R6]]]]]].
  rewrite run_app. cbn [fst snd]. pose proof R2 as [_ [c' [Q2 [_ Q4]]]]. specialize (Q4 _ R5).
  destruct (handle_all c _ R1 R2) as [_ W].
  - rewrite Q2, from_on_length. unfold c. lia.
  - rewrite W, R3. unfold c. lia.
Qed.

(* ---------- an honest walk ---------- *)
Definition readable (c : N) (n : N) : Prop :=
  output_for bd (addr c) (out_sub (T n)) (out_parent (T n)) (out_num (T n)) (T n) /\ one_batch_per_digest bd (T n) /\
  length (batch_set (out_sub (T n))) <= cap c.

Lemma local_same s s' n : f_log s' = f_log s -> f_start s' = f_start s -> f_stage s' = f_stage s -> f_static s' = f_static s -> local s' n = local s n.
Proof. intros A B C D. unfold local. rewrite A, B, C, D. auto. Qed.

Lemma newer_fields s h : f_log (newer_tip s h) = f_log s /\ f_start (newer_tip s h) = f_start s /\ f_stage (newer_tip s h) = f_stage s /\
  f_static (newer_tip s h) = f_static s /\ f_walks (newer_tip s h) = f_walks s /\ f_cache (newer_tip s h) = f_cache s.
Proof. unfold newer_tip. destruct (_ <? _)%N; repeat (split; auto). Qed.

Lemma nth_replace {A} i (x y : A) l : nth_error l i = Some y -> nth_error (replace_nth i x l) i = Some x.
Proof.
  intros H. assert (L : i < length l) by (apply nth_error_Some; congruence). unfold replace_nth.
  rewrite nth_error_app2; rewrite firstn_length_le by lia; [|lia]. rewrite Nat.sub_diag. reflexivity.
Qed.
Lemma remove_replace {A} i (x y : A) l : nth_error l i = Some y -> remove_nth i (replace_nth i x l) = remove_nth i l.
Proof.
  intros H. assert (L : i < length l) by (apply nth_error_Some; congruence). unfold remove_nth, replace_nth.
  rewrite firstn_app, firstn_firstn, Nat.min_id, firstn_length_le, Nat.sub_diag by lia. simpl firstn. rewrite app_nil_r. f_equal.
  rewrite skipn_app, firstn_length_le by lia. replace (S i - i) with 1 by lia.
  rewrite skipn_all2 by (rewrite firstn_length_le; lia). reflexivity.
Qed.

(** One honest answer. *)
Lemma walk_once s i w num stop c : inv s -> nth_error (f_walks s) i = Some w -> w_job w = Walking num (digest_at num) stop ->
  (0 < num)%N -> local s num = None -> readable c num ->
  let s' := walk_step bd hd addr cap s i true (Some (c, write_output bd (T num))) in
  (forall n, cget n (f_cache s') = if (num =? n)%N then Some (T num) else cget n (f_cache s)) /\
  (forall n, local s' n = local s n) /\ inv s' /\
  f_walks s' = (if (num - 1 <? stop)%N then remove_nth i (f_walks s)
                else replace_nth i {| w_floor := w_floor w; w_ceil := w_ceil w; w_job := Walking (num - 1) (digest_at (num - 1)) stop |} (f_walks s)).
Proof.
  intros I W J Hn L R. unfold walk_step. rewrite W, J, L.
  assert (Z : (0 <? num)%N = true) by (apply N.ltb_lt; auto).
  destruct (cget num (f_cache s)) as [o|] eqn:C.
  - assert (o = T num) as -> by (apply I, cget_in; auto). rewrite T_num, Z, T_par' by auto.
    cbn zeta. unfold continue_walk.
    assert (X : forall n, cget n (f_cache s) = (if (num =? n)%N then Some (T num) else cget n (f_cache s))).
    { intros n. destruct (num =? n)%N eqn:E; auto. apply N.eqb_eq in E. subst n. auto. }
    pose proof (inv_continue s i w (num - 1)%N (digest_at (num - 1)) stop I eq_refl) as Ic. unfold continue_walk in Ic.
    destruct (_ <? stop)%N; (split; [exact X|split; [reflexivity|split; [exact Ic|reflexivity]]]).
  - destruct R as [R1 [R2 R3]].
    assert (E : check_expectation hd (header_of (T num)) (EDigest (digest_at num)) = true) by (simpl; apply N.eqb_refl).
    pose proof (write_read bd (addr c) hd (cap c) _ _ [] R1 R2 R3 E) as Wr. rewrite app_nil_r in Wr. rewrite Wr, Z, T_par' by auto.
    cbn zeta. destruct (newer_fields (set_cache s (cput num (T num) (f_cache s))) (header_of (T num))) as [F1 [F2 [F3 [F4 [F5 F6]]]]].
    assert (I1 : inv (newer_tip (set_cache s (cput num (T num) (f_cache s))) (header_of (T num)))).
    { apply inv_newer; [|apply true_output_header, true_T]. apply inv_cache; auto.
      intros m x [Em|Em]; [congruence|]. apply cdel_in in Em. apply I; auto. }
    pose proof (inv_continue _ i w (num - 1)%N (digest_at (num - 1)) stop I1 eq_refl) as Ic. unfold continue_walk in Ic |- *.
    destruct (_ <? stop)%N; (split; [|split; [|split; [exact Ic|]]]); cbn [set_walks f_cache f_walks]; rewrite ?F5, ?F6; auto.
    + intros n. apply cget_cput.
    + intros n. apply local_same; auto.
    + intros n. apply cget_cput.
    + intros n. apply local_same; auto.
Qed.

Definition answers (c : N -> N) (i : nat) (num : N) (k : nat) : list ev :=
  map (fun j => FolModel.Walk i true (Some (c (num - N.of_nat j)%N, write_output bd (T (num - N.of_nat j))))) (seq 0 k).
Lemma answers_S c i num k : answers c i num (S k) = FolModel.Walk i true (Some (c num, write_output bd (T num))) :: answers c i (num - 1) k.
Proof.
  unfold answers. cbn [seq map]. replace (num - N.of_nat 0)%N with num by lia. f_equal. rewrite <- seq_shift, map_map. apply map_ext. intros j.
  replace (num - N.of_nat (S j))%N with (num - 1 - N.of_nat j)%N by lia. auto.
Qed.

Lemma walk_down c i k : forall s w num stop, inv s -> nth_error (f_walks s) i = Some w -> w_job w = Walking num (digest_at num) stop ->
  (N.of_nat k < num)%N -> (stop <= num - N.of_nat k)%N ->
  (forall n, (num - N.of_nat k <= n <= num)%N -> local s n = None /\ readable (c n) n) ->
  let s' := fst (run s (answers c i num (S k))) in
  inv s' /\ (forall n, local s' n = local s n) /\
  (forall n, cget n (f_cache s') = if ((num - N.of_nat k <=? n) && (n <=? num))%N then Some (T n) else cget n (f_cache s)) /\
  exists w', f_walks s' = (if (num - N.of_nat k - 1 <? stop)%N then remove_nth i (f_walks s) else replace_nth i w' (f_walks s)) /\
    w_floor w' = w_floor w /\ w_ceil w' = w_ceil w /\ w_job w' = Walking (num - N.of_nat k - 1) (digest_at (num - N.of_nat k - 1)) stop.
Proof.
  induction k as [|k IH]; intros s w num stop I W J Hk Hs Hl; cbn zeta; rewrite answers_S, run_cons; cbn [fst snd FolModel.step].
  - destruct (Hl num ltac:(lia)) as [L R]. destruct (walk_once s i w num stop (c num) I W J ltac:(lia) L R) as [C [Lo [I1 F]]].
    change (answers c i (num - 1) 0) with (@nil ev). cbn [FolModel.run fst].
    split; [exact I1|]. split; [exact Lo|]. split.
    + intros n. rewrite C. destruct (num =? n)%N eqn:E.
      * apply N.eqb_eq in E. subst n. assert (X : ((num - N.of_nat 0 <=? num) && (num <=? num))%N = true) by (apply andb_true_iff; split; apply N.leb_le; lia). rewrite X. auto.
      * apply N.eqb_neq in E. destruct ((num - N.of_nat 0 <=? n) && (n <=? num))%N eqn:X; auto. apply andb_true_iff in X. destruct X as [X Y]. apply N.leb_le in X, Y. lia.
    + rewrite F. replace (num - N.of_nat 0 - 1)%N with (num - 1)%N by lia. eexists. split; [reflexivity|]. auto.
  - destruct (Hl num ltac:(lia)) as [L R]. destruct (walk_once s i w num stop (c num) I W J ltac:(lia) L R) as [C [Lo [I1 F]]].
    cbn zeta in C, Lo, I1, F. set (s1 := walk_step bd hd addr cap s i true (Some (c num, write_output bd (T num)))) in *.
    destruct (num - 1 <? stop)%N eqn:E; [apply N.ltb_lt in E; lia|].
    set (w1 := {| w_floor := w_floor w; w_ceil := w_ceil w; w_job := Walking (num - 1) (digest_at (num - 1)) stop |}) in *.
    assert (W1 : nth_error (f_walks s1) i = Some w1) by (rewrite F; eapply nth_replace; eauto).
    destruct (IH s1 w1 (num - 1)%N stop I1 W1 eq_refl ltac:(lia) ltac:(lia)) as [R1 [R2 [R3 [w' [R4 R5]]]]].
    { intros n Hn. rewrite Lo. apply Hl. lia. }
    split; [exact R1|]. split; [intros n; rewrite R2; apply Lo|].
    replace (num - N.of_nat (S k))%N with (num - 1 - N.of_nat k)%N by lia. split.
    + intros n. rewrite R3, C. destruct (num =? n)%N eqn:En.
      * apply N.eqb_eq in En. subst n. assert (X : ((num - 1 - N.of_nat k <=? num) && (num <=? num))%N = true) by (apply andb_true_iff; split; apply N.leb_le; lia). rewrite X.
        match goal with |- (if ?b then _ else _) = _ => destruct b; reflexivity end.
      * apply N.eqb_neq in En. destruct (num - 1 - N.of_nat k <=? n)%N eqn:X; cbn [andb]; auto.
        destruct (n <=? num - 1)%N eqn:Y, (n <=? num)%N eqn:Z; auto.
        -- apply N.leb_le in Y. apply N.leb_gt in Z. lia.
        -- apply N.leb_gt in Y. apply N.leb_le in Z. lia.
    + exists w'. split; [|exact R5]. rewrite R4, F. clear E. match goal with |- (if ?b then _ else _) = _ => destruct b end; [eapply remove_replace; eauto|].
      assert (Ln : i < length (f_walks s)) by (apply nth_error_Some; congruence).
      clear - Ln. unfold replace_nth. rewrite firstn_app, firstn_firstn, Nat.min_id, firstn_length_le, Nat.sub_diag by lia. simpl firstn. rewrite app_nil_r. f_equal. f_equal.
      rewrite skipn_app, firstn_length_le by lia. replace (S i - i) with 1 by lia. rewrite skipn_all2 by (rewrite firstn_length_le; lia). reflexivity.
Qed.
End P.

(* ---------- the ledger ---------- *)
Lemma rins_in x y l : In y (rins x l) <-> y = x \/ In y l.
Proof. induction l as [|z l IH]; simpl; [intuition|]. destruct (rle x z); simpl; [intuition|]. rewrite IH. intuition. Qed.
Lemma rsort_in y l : In y (rsort l) <-> In y l.
Proof. induction l as [|x l IH]; simpl; [tauto|]. rewrite rins_in, IH. intuition. Qed.
Definition by_floor := StronglySorted (fun a b : N * N => (fst a <= fst b)%N).
Lemma rins_sorted x l : by_floor l -> by_floor (rins x l).
Proof.
  unfold by_floor. induction l as [|y l IH]; intros H; simpl; [constructor; constructor|]. inversion H; subst.
  destruct (rle x y) eqn:E.
  - assert (L : (fst x <= fst y)%N).
    { unfold rle in E. apply orb_true_iff in E. destruct E as [E|E]; [apply N.ltb_lt in E; lia|]. apply andb_true_iff in E. destruct E as [E _]. apply N.eqb_eq in E. lia. }
    constructor; auto. constructor; auto. eapply Forall_impl; [|eassumption]. intros z Hz. simpl in Hz. lia.
  - assert (L : (fst y <= fst x)%N).
    { unfold rle in E. apply orb_false_iff in E. destruct E as [E _]. apply N.ltb_ge in E. auto. }
    constructor; auto. rewrite Forall_forall in *. intros z Hz. apply rins_in in Hz. destruct Hz as [->|Hz]; auto.
Qed.
Lemma rsort_sorted l : by_floor (rsort l).
Proof. induction l as [|x l IH]; simpl; [constructor|]. apply rins_sorted; auto. Qed.

Lemma sweep_spec ceil l : forall needed, by_floor l -> (needed <= ceil)%N ->
  (sweep ceil needed l = true <-> forall n, (needed <= n <= ceil)%N -> exists r, In r l /\ (fst r <= n <= snd r)%N).
Proof.
  induction l as [|[a b] l IH]; intros needed Srt Hn; simpl.
  - split; [intros H; discriminate H|]. intros H. destruct (H needed ltac:(lia)) as [r [[] _]].
  - inversion Srt as [|? ? Srt' Fa]; subst. destruct (needed <? a)%N eqn:E1.
    + apply N.ltb_lt in E1. split; [intros H; discriminate H|]. intros H. exfalso.
      destruct (H needed ltac:(lia)) as [r [[<-|Hr] Hb]]; [simpl in Hb; lia|].
      rewrite Forall_forall in Fa. specialize (Fa _ Hr). simpl in Fa. lia.
    + apply N.ltb_ge in E1. destruct (ceil <=? b)%N eqn:E2.
      * apply N.leb_le in E2. split; auto. intros _ n H. exists (a, b). simpl. split; auto. lia.
      * apply N.leb_gt in E2. rewrite IH by (auto; lia). split.
        -- intros H n Hr. destruct (N.le_gt_cases n b) as [L|L]; [exists (a, b); simpl; split; auto; lia|].
           destruct (H n ltac:(lia)) as [r [R1 R2]]. exists r. auto.
        -- intros H n Hr. destruct (H n ltac:(lia)) as [r [[<-|R1] R2]]; [simpl in R2; lia|]. exists r. auto.
Qed.

Lemma covered_spec rs floor ceil : (floor <= ceil)%N ->
  (covered rs floor ceil = true <-> forall n, (floor <= n <= ceil)%N -> exists r, In r rs /\ (fst r <= n <= snd r)%N).
Proof.
  intros H. unfold covered. rewrite sweep_spec by (auto; apply rsort_sorted). split.
  - intros A n Hn. destruct (A n Hn) as [r [R1 R2]]. apply rsort_in, filter_In in R1. exists r. split; [apply R1|auto].
  - intros A n Hn. destruct (A n Hn) as [r [R1 R2]]. exists r. split; auto. apply rsort_in, filter_In. split; auto.
    apply andb_true_iff. split; apply N.leb_le; lia.
Qed.
