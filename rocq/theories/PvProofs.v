(** Proofs for C62: the validator's walk finds exactly the problems. *)
From Verif Require Import Util OutModel OutSpec OutProofs ImpModel ImpProofs PvModel PvSpec.
Local Open Scope N_scope.
Set Default Proof Using "Type".

Fixpoint headr (l : list rec) : list rec :=
  match l with [] => [] | RHeader _ :: _ => [] | r :: t => r :: headr t end.
Fixpoint has_header (l : list rec) : bool :=
  match l with [] => false | r :: t => is_header r || has_header t end.
Definition tailr (l : list rec) : list rec := rev (headr (rev l)).

Lemma has_header_false l : has_header l = false <-> no_header l.
Proof.
  unfold no_header. induction l as [|r t IH]; simpl; [firstorder|]. rewrite orb_false_iff, IH. split.
  - intros [A B] h [->|H]; [discriminate A|]. eapply B; eauto.
  - intros H. split; [destruct r; auto; exfalso; eapply H; left; reflexivity|]. intros h C. eapply H; eauto.
Qed.
Lemma no_header_app a b : no_header (a ++ b) <-> no_header a /\ no_header b.
Proof. rewrite <- !has_header_false. induction a as [|r t IH]; simpl; [tauto|]. rewrite !orb_false_iff, IH. tauto. Qed.
Lemma no_header_rev a : no_header (rev a) <-> no_header a.
Proof. unfold no_header. split; intros H h C; apply (H h); apply in_rev; auto. rewrite rev_involutive; auto. Qed.
Lemma no_header_cons r t : no_header (r :: t) <-> is_header r = false /\ no_header t.
Proof. rewrite <- !has_header_false. simpl. apply orb_false_iff. Qed.

Lemma headr_no l : no_header (headr l).
Proof.
  induction l as [|[m|h|b|] t IH]; simpl; try (intros k C; simpl in C; tauto); apply no_header_cons; auto.
Qed.
Lemma headr_split l : (no_header l /\ headr l = l) \/ exists h b, l = headr l ++ RHeader h :: b.
Proof.
  induction l as [|r t IH]; [left; split; auto; intros h []|].
  destruct (is_header r) eqn:E.
  - right. destruct r; try discriminate E. simpl. eauto.
  - assert (X : headr (r :: t) = r :: headr t) by (destruct r; auto; discriminate E). rewrite X.
    destruct IH as [[A B]|[h [b B]]].
    + left. split; [apply no_header_cons; auto|congruence].
    + right. exists h, b. simpl. congruence.
Qed.
Lemma headr_pre b1 b2 : no_header b1 -> headr (b1 ++ b2) = b1 ++ headr b2.
Proof.
  induction b1 as [|r t IH]; simpl; auto. intros H. apply no_header_cons in H. destruct H as [A B].
  destruct r; try discriminate A; rewrite IH; auto.
Qed.
Lemma headr_all b : no_header b -> headr b = b.
Proof. intros H. rewrite <- (app_nil_r b) at 1. rewrite headr_pre; auto. apply app_nil_r. Qed.

Lemma tailr_no l : no_header (tailr l).
Proof. unfold tailr. apply no_header_rev, headr_no. Qed.
Lemma tailr_all l : no_header l -> tailr l = l.
Proof. intros H. unfold tailr. rewrite headr_all; [apply rev_involutive|]. apply no_header_rev; auto. Qed.
Lemma tailr_split l : (no_header l /\ tailr l = l) \/ exists a h, l = a ++ RHeader h :: tailr l.
Proof.
  destruct (headr_split (rev l)) as [[A B]|[h [b B]]].
  - left. apply (no_header_rev l) in A. split; auto. apply tailr_all; auto.
  - right. exists (rev b), h. unfold tailr. rewrite <- (rev_involutive l) at 1. rewrite B at 1.
    rewrite rev_app_distr. simpl. rewrite <- app_assoc. reflexivity.
Qed.
Lemma tailr_snoc l r : tailr (l ++ [r]) = if is_header r then [] else tailr l ++ [r].
Proof. unfold tailr. rewrite rev_app_distr. destruct r; simpl; auto. Qed.
Lemma tailr_post a h b : no_header b -> tailr (a ++ RHeader h :: b) = b.
Proof.
  intros H. unfold tailr. rewrite rev_app_distr. cbn [rev]. rewrite <- app_assoc.
  rewrite headr_pre by (apply no_header_rev; auto). simpl. rewrite app_nil_r, rev_involutive. auto.
Qed.

(** Splits at a header. *)
Lemma split_snoc l r a h b : l ++ [r] = a ++ RHeader h :: b ->
  (b = [] /\ a = l /\ r = RHeader h) \/ exists b', b = b' ++ [r] /\ l = a ++ RHeader h :: b'.
Proof.
  destruct b as [|y b _] using rev_ind; intros E.
  - left. apply app_inj_tail in E. destruct E; auto.
  - right. exists b. change (a ++ RHeader h :: b ++ [y]) with (a ++ (RHeader h :: b) ++ [y]) in E. rewrite app_assoc in E. apply app_inj_tail in E. destruct E as [-> ->]; auto.
Qed.
Lemma last_split a h b a' h' b' : no_header b -> no_header b' ->
  a ++ RHeader h :: b = a' ++ RHeader h' :: b' -> a = a' /\ h = h' /\ b = b'.
Proof.
  intros B B' E. assert (b = b') as <-.
  { rewrite <- (tailr_post a h b B), E, (tailr_post a' h' b' B'). auto. }
  assert (E' : (a ++ [RHeader h]) ++ b = (a' ++ [RHeader h']) ++ b) by (rewrite <- !app_assoc; exact E).
  apply app_inv_tail in E'. apply app_inj_tail in E'. destruct E' as [-> H]. injection H as ->. auto.
Qed.

Lemma hset_put_in d s x : In x (hset_put d s) <-> x = d \/ In x s.
Proof.
  unfold hset_put. destruct (memN d s) eqn:E.
  - apply memN_In in E. split; auto. intros [->|H]; auto.
  - rewrite in_app_iff. simpl. intuition.
Qed.
Lemma hset_fold_in l s x : In x (fold_left (fun s d => hset_put d s) l s) <-> In x s \/ In x l.
Proof. revert s. induction l as [|d l IH]; intros s; simpl; [tauto|]. rewrite IH, hset_put_in. intuition. Qed.

Lemma fold_concat {A B C} (f : A -> B -> A) (g : C -> list B) l : forall a,
  fold_left (fun a c => fold_left f (g c) a) l a = fold_left f (concat (map g l)) a.
Proof. induction l as [|c l IH]; intros a; simpl; auto. rewrite IH, fold_left_app. auto. Qed.

Definition Nlt_dec (x y : N) : {x < y} + {~ x < y}.
Proof. destruct (x <? y) eqn:E; [left; apply N.ltb_lt; auto|right; apply N.ltb_nlt; auto]. Defined.
Lemma unsorted_pair (l : list N) : ~ ssorted l <-> exists l1 x l2 y l3, l = l1 ++ x :: l2 ++ y :: l3 /\ y <= x.
Proof.
  split.
  - induction l as [|x l IH]; intros H; [exfalso; apply H; constructor|].
    destruct (Forall_dec (fun y => x < y) (fun y => Nlt_dec x y) l) as [F|F].
    + destruct IH as [l1 [x' [l2 [y [l3 [E L]]]]]].
      { intros S. apply H. constructor; auto. }
      exists (x :: l1), x', l2, y, l3. simpl. rewrite E. auto.
    + apply neg_Forall_Exists_neg in F; [|intros y; destruct (Nlt_dec x y); [left|right]; auto].
      apply Exists_exists in F. destruct F as [y [Hy L]]. apply in_split in Hy. destruct Hy as [l2 [l3 ->]].
      exists [], x, l2, y, l3. split; auto. lia.
  - intros [l1 [x [l2 [y [l3 [-> L]]]]]] S. induction l1 as [|z l1 IH]; simpl in S; apply StronglySorted_inv in S; destruct S as [S F]; auto.
    rewrite Forall_forall in F. specialize (F y). rewrite in_app_iff in F. simpl in F. assert (x < y) by auto. lia.
Qed.

Section P.
Variable bd : N -> N.
Variable hd : N -> subdag -> N -> N.
Variable dec : N -> emeta.

(** Digests of the batches among records, in order. *)
Definition digs (l : list rec) : list N := flat_map (fun r => match r with RBatch b => [bd b] | _ => [] end) l.
Lemma digs_app a b : digs (a ++ b) = digs a ++ digs b.
Proof. apply flat_map_app. Qed.
Lemma digs_in l d : In d (digs l) <-> exists x, In (RBatch x) l /\ bd x = d.
Proof. clear hd dec.
  unfold digs. rewrite in_flat_map. split.
  - intros [[m|h|b|] [A B]]; simpl in B; try tauto. destruct B as [<-|[]]. eauto.
  - intros [x [A <-]]. exists (RBatch x). simpl; auto.
Qed.
Lemma digs_split l : forall l1 d l2, digs l = l1 ++ d :: l2 ->
  exists g1 x g2, l = g1 ++ RBatch x :: g2 /\ bd x = d /\ digs g1 = l1 /\ digs g2 = l2.
Proof.
  induction l as [|r t IH]; intros l1 d l2 E; [destruct l1; discriminate E|].
  destruct r as [m|h|b|]; simpl in E.
  1,2,4: destruct (IH _ _ _ E) as [g1 [x [g2 [-> [A [B C]]]]]]; eexists (_ :: g1), x, g2; simpl; split; [reflexivity|auto].
  destruct l1 as [|z l1]; injection E as E1 E2.
  - exists [], b, t. auto.
  - destruct (IH _ _ _ E2) as [g1 [x [g2 [-> [A [B C]]]]]]. exists (RBatch b :: g1), x, g2.
    split; [auto|]. split; [auto|]. split; [|auto].
    change (digs (RBatch b :: g1)) with (bd b :: digs g1). congruence.
Qed.

(** The group of the header between [a] and [b]. *)
Definition grp (ver : N) (a b : list rec) : list rec :=
  if ver =? 0 then tailr a else (if has_header a then [] else a) ++ headr b.

Lemma grp_seq ver a b : group_seq ver a b (grp ver a b).
Proof.
  unfold group_seq, grp. destruct (ver =? 0).
  - split; [apply tailr_no|]. destruct (tailr_split a) as [[_ E]|[a1 [h E]]]; [exists []; rewrite E; auto|].
    exists (a1 ++ [RHeader h]). rewrite <- app_assoc. exact E.
  - assert (exists b2, b = headr b ++ b2) as [b2 E] by (destruct (headr_split b) as [[_ E]|[h [b2 E]]]; [exists []; rewrite app_nil_r; auto|eauto]).
    exists (headr b), b2. split; auto. split; [apply headr_no|].
    destruct (has_header a) eqn:H; auto. right. split; auto. apply has_header_false; auto.
Qed.
Lemma seq_in_grp ver a b g : group_seq ver a b g -> exists u v, grp ver a b = u ++ g ++ v.
Proof.
  unfold group_seq, grp. destruct (ver =? 0).
  - intros [H [a1 ->]]. unfold tailr. rewrite rev_app_distr, headr_pre by (apply no_header_rev; auto).
    rewrite rev_app_distr, rev_involutive. exists (rev (headr (rev a1))), []. rewrite app_nil_r. auto.
  - intros [b1 [b2 [-> [H [->|[Na ->]]]]]]; rewrite (headr_pre b1 b2 H).
    + eauto.
    + rewrite (proj2 (has_header_false a) Na). exists [], (headr b2). rewrite <- app_assoc. auto.
Qed.
Lemma grouped_iff ver a b d : grouped bd ver a b d <-> In d (digs (grp ver a b)).
Proof.
  rewrite digs_in. split.
  - intros [g [x [A [B C]]]]. destruct (seq_in_grp _ _ _ _ A) as [u [v E]]. exists x. rewrite E, !in_app_iff. auto.
  - intros [x [A B]]. exists (grp ver a b), x. split; auto. apply grp_seq.
Qed.
Lemma disordered_iff ver a b : disordered bd ver a b <-> ~ ssorted (digs (grp ver a b)).
Proof.
  rewrite unsorted_pair. split.
  - intros [g [g1 [x [g2 [y [g3 [A [-> L]]]]]]]]. destruct (seq_in_grp _ _ _ _ A) as [u [v E]].
    exists (digs u ++ digs g1), (bd x), (digs g2), (bd y), (digs g3 ++ digs v). split; auto. rewrite E.
    repeat rewrite ?digs_app, <- ?app_assoc; simpl. repeat rewrite ?digs_app, <- ?app_assoc; simpl.
    rewrite ?digs_app, <- ?app_assoc. reflexivity.
  - intros [l1 [x [l2 [y [l3 [E L]]]]]]. destruct (digs_split _ _ _ _ E) as [g1 [bx [g2 [E1 [<- [_ E2]]]]]].
    destruct (digs_split _ _ _ _ E2) as [g3 [by' [g4 [E3 [<- _]]]]].
    exists (grp ver a b), g1, bx, g3, by', g4. split; [apply grp_seq|]. rewrite E1, E3. auto.
Qed.

(** Issues about the header between [a] and [b]: numbering and parent; group (unclassified). *)
Definition lin (start : N) (anchor : option N) (a : list rec) (h : chdr) (x : issue) : Prop :=
  (x = NonSequential (start + N.of_nat (length (filter is_header a))) (ch_num h) /\
   start + N.of_nat (length (filter is_header a)) <> ch_num h) \/
  (exists p, x = ChainBreak (ch_num h) p (ch_parent h) /\ expected_parent hd anchor a p /\ p <> ch_parent h).
Definition gissue (ver : N) (g : list rec) (h : chdr) (x : issue) : Prop :=
  (exists d, x = MissingBatch (ch_num h) d Absent /\ In d (named (ch_sub h)) /\ ~ In d (digs g)) \/
  (exists d, x = ExtraBatch (ch_num h) d /\ In d (digs g) /\ ~ In d (named (ch_sub h))) \/
  (ver <> 0 /\ x = UnsortedBatches (ch_num h) /\ (forall d, In d (named (ch_sub h)) <-> In d (digs g)) /\ ~ ssorted (digs g)).

(** The chain anchor seen by the next header. *)
Definition parent_now (anchor : option N) (l : list rec) (p : option N) : Prop :=
  forall q, p = Some q <-> expected_parent hd anchor l q.
Lemma parent_nil anchor : parent_now anchor [] anchor.
Proof.
  intros q. unfold expected_parent. split.
  - intros ->. right. split; auto. intros h [].
  - intros [[a1 [g [a2 [E _]]]]|[_ E]]; auto. destruct a1; discriminate E.
Qed.
Lemma parent_snoc_header anchor l h : parent_now anchor (l ++ [RHeader h]) (Some (digest_of hd h)).
Proof.
  intros q. unfold expected_parent. split.
  - intros E; injection E as <-. left. exists l, h, []. split; auto. split; auto. intros g [].
  - intros [[a1 [g [a2 [E [H ->]]]]]|[H _]].
    + apply (last_split l h []) in E; auto; [destruct E as [_ [-> _]]; auto|intros k []].
    + exfalso. apply (H h). apply in_app_iff. simpl; auto.
Qed.
Lemma parent_snoc_other anchor l r p : is_header r = false -> parent_now anchor l p -> parent_now anchor (l ++ [r]) p.
Proof. clear dec bd.
  intros Hr P q. rewrite (P q). unfold expected_parent.
  assert (Hr' : no_header [r]) by (apply no_header_cons; split; auto; intros h []). split.
  - intros [[a1 [g [a2 [-> [H ->]]]]]|[H E]].
    + left. exists a1, g, (a2 ++ [r]). rewrite <- app_assoc. split; auto. split; auto. apply no_header_app; auto.
    + right. split; auto. apply no_header_app; auto.
  - intros [[a1 [g [a2 [E [H ->]]]]]|[H E]].
    + left. destruct (split_snoc _ _ _ _ _ E) as [[_ [_ ->]]|[b' [-> ->]]]; [discriminate Hr|].
      apply no_header_app in H. destruct H as [H _]. eauto 10.
    + right. apply no_header_app in H. tauto.
Qed.

(** What both walks keep: [sel a h b] tells which headers' groups were judged. *)
Definition inv (ver start : N) (anchor : option N) (init : list issue) (sel : list rec -> Prop) (l : list rec) (w : walk) : Prop :=
  w_bc w = N.of_nat (length (filter is_batch l)) /\
  w_cc w = N.of_nat (length (filter is_header l)) /\
  (forall n, w_first w = Some n <-> exists a h b, l = a ++ RHeader h :: b /\ no_header a /\ n = ch_num h) /\
  (forall n, w_last w = Some n <-> exists a h b, l = a ++ RHeader h :: b /\ no_header b /\ n = ch_num h) /\
  parent_now anchor l (w_parent w) /\
  (forall d, In d (w_all w) <-> In d (digs l)) /\
  (forall x, In x (w_issues w) <->
     In x init \/ (x = MetaMismatch /\ exists y, In (RMeta y) l) \/
     (exists a h b, l = a ++ RHeader h :: b /\ lin start anchor a h x) \/
     (exists a h b, l = a ++ RHeader h :: b /\ sel b /\ gissue ver (grp ver a b) h x)).

Lemma header_checks_ok start h w :
  let w' := header_checks start h w in
  w_bc w' = w_bc w /\ w_cc w' = w_cc w + 1 /\
  w_first w' = match w_first w with None => Some (ch_num h) | f => f end /\ w_last w' = Some (ch_num h) /\
  w_parent w' = w_parent w /\ w_all w' = w_all w /\ w_group w' = w_group w /\ w_refd w' = w_refd w /\ w_open w' = w_open w /\
  (forall x, In x (w_issues w') <-> In x (w_issues w) \/
     (x = NonSequential (start + w_cc w) (ch_num h) /\ start + w_cc w <> ch_num h) \/
     (exists p, w_parent w = Some p /\ x = ChainBreak (ch_num h) p (ch_parent h) /\ p <> ch_parent h)).
Proof. clear hd dec bd.
  intros w'. unfold w'; clear w'.
  assert (P : forall v, let v' := check_parent h v in
    w_bc v' = w_bc v /\ w_cc v' = w_cc v /\ w_first v' = w_first v /\ w_last v' = w_last v /\
    w_parent v' = w_parent v /\ w_all v' = w_all v /\ w_group v' = w_group v /\ w_refd v' = w_refd v /\ w_open v' = w_open v /\
    (forall x, In x (w_issues v') <-> In x (w_issues v) \/
      (exists p, w_parent v = Some p /\ x = ChainBreak (ch_num h) p (ch_parent h) /\ p <> ch_parent h))).
  { intros v v'. unfold v', check_parent. destruct (w_parent v) as [p|] eqn:Ep.
    - destruct (N.eqb_spec (ch_parent h) p) as [Eq|Eq]; cbn.
      + do 9 (split; [auto|]). intros x. split; auto. intros [H|[q [H1 [_ H2]]]]; auto. congruence.
      + do 9 (split; [auto|]). intros x. rewrite in_app_iff. simpl. split.
        * intros [H|[<-|[]]]; auto. right. exists p. auto.
        * intros [H|[q [H1 [-> H2]]]]; auto. injection H1 as <-. auto.
    - do 9 (split; [auto|]). intros x. split; auto. intros [H|[q [H1 _]]]; auto. discriminate H1. }
  assert (Q : forall v, let v' := check_number start h v in
    w_bc v' = w_bc v /\ w_cc v' = w_cc v /\ w_first v' = w_first v /\ w_last v' = w_last v /\
    w_parent v' = w_parent v /\ w_all v' = w_all v /\ w_group v' = w_group v /\ w_refd v' = w_refd v /\ w_open v' = w_open v /\
    (forall x, In x (w_issues v') <-> In x (w_issues v) \/
      (x = NonSequential (start + (w_cc v - 1)) (ch_num h) /\ start + (w_cc v - 1) <> ch_num h))).
  { intros v v'. unfold v', check_number. destruct (N.eqb_spec (ch_num h) (start + (w_cc v - 1))) as [Eq|Eq]; cbn.
    - do 9 (split; [auto|]). intros x. split; auto. intros [H|[_ H2]]; auto. congruence.
    - do 9 (split; [auto|]). intros x. rewrite in_app_iff. simpl. split.
      + intros [H|[<-|[]]]; auto.
      + intros [H|[-> H2]]; auto. }
  unfold header_checks. destruct (P (check_number start h (count_header h w))) as [P1 [P2 [P3 [P4 [P5 [P6 [P7 [P8 [P9 P10]]]]]]]]].
  destruct (Q (count_header h w)) as [Q1 [Q2 [Q3 [Q4 [Q5 [Q6 [Q7 [Q8 [Q9 Q10]]]]]]]]]. clear P Q.
  rewrite P1, P2, P3, P4, P5, P6, P7, P8, P9, Q1, Q2, Q3, Q4, Q5, Q6, Q7, Q8, Q9.
  do 9 (split; [reflexivity|]). intros x. rewrite P10, Q10, Q5.
  replace (w_cc (count_header h w) - 1) with (w_cc w) by (unfold count_header; simpl; lia).
  change (w_issues (count_header h w)) with (w_issues w). change (w_parent (count_header h w)) with (w_parent w). tauto.
Qed.

Lemma lin_snoc start anchor l r x :
  (exists a h b, l ++ [r] = a ++ RHeader h :: b /\ lin start anchor a h x) <->
  (exists a h b, l = a ++ RHeader h :: b /\ lin start anchor a h x) \/ (exists h, r = RHeader h /\ lin start anchor l h x).
Proof.
  split.
  - intros [a [h [b [E L]]]]. destruct (split_snoc _ _ _ _ _ E) as [[-> [-> ->]]|[b' [-> ->]]]; eauto 10.
  - intros [[a [h [b [-> L]]]]|[h [-> L]]].
    + exists a, h, (b ++ [r]). rewrite <- app_assoc. auto.
    + exists l, h, []. auto.
Qed.

Lemma first_snoc l r (f : option N) :
  (forall n, f = Some n <-> exists a h b, l = a ++ RHeader h :: b /\ no_header a /\ n = ch_num h) ->
  forall n, (match r with RHeader h => match f with None => Some (ch_num h) | f => f end | _ => f end) = Some n <->
    exists a h b, l ++ [r] = a ++ RHeader h :: b /\ no_header a /\ n = ch_num h.
Proof.
  intros F n.
  assert (Old : f = Some n -> exists a h b, l ++ [r] = a ++ RHeader h :: b /\ no_header a /\ n = ch_num h).
  { intros E. apply F in E. destruct E as [a [h [b [-> [A B]]]]]. exists a, h, (b ++ [r]). rewrite <- app_assoc. auto. }
  assert (New : forall a h b, l ++ [r] = a ++ RHeader h :: b -> no_header a -> n = ch_num h ->
            f = Some n \/ (r = RHeader h /\ no_header l)).
  { intros a h b E A B. destruct (split_snoc _ _ _ _ _ E) as [[-> [-> ->]]|[b' [-> ->]]]; auto. left. apply F. eauto 10. }
  assert (Nf : no_header l -> f = None).
  { intros H. destruct f as [k|]; auto. destruct (proj1 (F k) eq_refl) as [a [h [b [-> _]]]]. exfalso. apply (H h). apply in_app_iff; simpl; auto. }
  destruct r as [m|h|b|].
  1,3,4: split; [auto|]; intros [a [h' [b' [E [A B]]]]]; destruct (New _ _ _ E A B) as [G|[G _]]; [auto|discriminate G].
  destruct f as [k|] eqn:Ef.
  - split; [auto|]. intros [a [h' [b' [E [A B]]]]]. destruct (New _ _ _ E A B) as [G|[G H]]; auto. specialize (Nf H). discriminate Nf.
  - split.
    + intros E; injection E as <-. exists l, h, []. split; auto. split; auto. 
      apply has_header_false. destruct (has_header l) eqn:X; auto. exfalso.
      destruct (headr_split l) as [[Y _]|[g [b E]]]; [apply has_header_false in Y; congruence|].
      assert (@None N = Some (ch_num g)) as Z; [|discriminate Z]. apply F. exists (headr l), g, b. split; auto. split; auto. apply headr_no.
    + intros [a [h' [b' [E [A B]]]]]. destruct (New _ _ _ E A B) as [G|[G H]]; [discriminate G|]. injection G as ->. congruence.
Qed.
Lemma last_snoc l r (f : option N) :
  (forall n, f = Some n <-> exists a h b, l = a ++ RHeader h :: b /\ no_header b /\ n = ch_num h) ->
  forall n, (match r with RHeader h => Some (ch_num h) | _ => f end) = Some n <->
    exists a h b, l ++ [r] = a ++ RHeader h :: b /\ no_header b /\ n = ch_num h.
Proof. clear hd dec bd.
  intros F n. destruct (is_header r) eqn:Hr.
  - destruct r as [m|h|b|]; try discriminate Hr. split.
    + intros E; injection E as <-. exists l, h, []. split; auto. split; auto. intros k [].
    + intros [a [h' [b [E [A ->]]]]]. apply (last_split l h []) in E; auto; [destruct E as [_ [-> _]]; auto|intros k []].
  - assert (N1 : no_header [r]) by (apply no_header_cons; split; auto; intros k []).
    transitivity (f = Some n); [destruct r; try discriminate Hr; tauto|]. rewrite F. split.
    + intros [a [h [b [-> [A B]]]]]. exists a, h, (b ++ [r]). rewrite <- app_assoc. split; auto. split; auto. apply no_header_app; auto.
    + intros [a [h [b [E [A B]]]]]. destruct (split_snoc _ _ _ _ _ E) as [[_ [_ ->]]|[b' [-> ->]]]; [discriminate Hr|].
      apply no_header_app in A. destruct A. eauto 10.
Qed.
Lemma count_snoc f (l : list rec) r : N.of_nat (length (filter f (l ++ [r]))) = N.of_nat (length (filter f l)) + (if f r then 1 else 0).
Proof. rewrite filter_app, app_length. simpl. destruct (f r); simpl; lia. Qed.
End P.
