(** Proofs for C62: the report lists exactly the problems. *)
From Verif Require Import Util OutModel OutSpec OutProofs ImpModel ImpProofs PvModel PvSpec PvProofs PvWalk.
Local Open Scope N_scope.

Section P.
Variable bd : N -> N.
Variable hd : N -> subdag -> N -> N.
Variable dec : N -> emeta.
Notation validate := (validate bd hd dec).
Notation problem := (problem bd hd).

Definition meta_issues (epoch : N) (prev : option erec) (m : emeta) : list issue :=
  let issues := if negb (m_epoch m =? epoch) then [MetaMismatch] else [] in
  match prev with
  | Some p => if negb (verify_epoch_meta epoch p m) then issues ++ [MetaMismatch] else issues
  | None => issues
  end.
Definition anchor_of (epoch : N) (prev : option erec) : option N := if epoch =? 0 then None else option_map er_chash prev.

Lemma meta_issues_in epoch prev m x : In x (meta_issues epoch prev m) <->
  x = MetaMismatch /\ (m_epoch m <> epoch \/ exists p, prev = Some p /\ verify_epoch_meta epoch p m = false).
Proof.
  unfold meta_issues. assert (B : In x (if negb (m_epoch m =? epoch) then [MetaMismatch] else []) <-> x = MetaMismatch /\ m_epoch m <> epoch).
  { destruct (N.eqb_spec (m_epoch m) epoch); simpl; intuition. }
  destruct prev as [p|].
  - destruct (verify_epoch_meta epoch p m) eqn:V; cbn [negb].
    + rewrite B. split; [intros [H1 H2]; auto|]. intros [H [H2|[q [E F]]]]; auto. injection E as <-. congruence.
    + rewrite in_app_iff, B. simpl. split.
      * intros [[H1 H2]|[<-|[]]]; split; eauto.
      * intros [-> _]. auto.
  - rewrite B. split; [intros [H1 H2]; auto|]. intros [H [H2|[q [E F]]]]; auto. discriminate E.
Qed.

Lemma grp_ver ver a b : ver <> 0 -> grp ver a b = grp 1 a b.
Proof. intros H. unfold grp. rewrite (proj2 (N.eqb_neq _ _) H). reflexivity. Qed.

(** The walk of either version. *)
Definition walked (ver epoch : N) (prev : option erec) (m : emeta) (recs : list rec) : option walk :=
  if ver =? 0 then walk_all (step_v0 bd hd (m_start m)) recs (walk0 (anchor_of epoch prev) (meta_issues epoch prev m))
  else option_map close_open (walk_all (step_v1 bd hd (m_start m)) recs (walk0 (anchor_of epoch prev) (meta_issues epoch prev m))).
Lemma validate_walked ver epoch prev x rest :
  validate ver epoch prev (RMeta x :: rest) =
  option_map (finalize epoch (m_start (dec x))) (walked ver epoch prev (dec x) rest).
Proof.
  unfold PvModel.validate, walked, verify_v0_data, verify_v1_data. fold (anchor_of epoch prev). fold (meta_issues epoch prev (dec x)).
  destruct (ver =? 0); auto. destruct (walk_all _ _ _); auto.
Qed.
Lemma walked_none ver epoch prev m recs : walked ver epoch prev m recs = None <-> In RBad recs.
Proof.
  unfold walked. destruct (ver =? 0).
  - apply walk_v0.
  - rewrite <- (proj1 (walk_v1 bd hd (m_start m) (anchor_of epoch prev) (meta_issues epoch prev m) recs)).
    destruct (walk_all (step_v1 _ _ _) _ _); simpl; split; intros H; auto; discriminate H.
Qed.
Lemma walked_inv ver epoch prev m recs w : walked ver epoch prev m recs = Some w ->
  inv bd hd (if ver =? 0 then 0 else 1) (m_start m) (anchor_of epoch prev) (meta_issues epoch prev m) (fun _ => True) recs w.
Proof.
  unfold walked. destruct (ver =? 0).
  - intros H. apply (walk_v0 bd hd) in H. tauto.
  - destruct (walk_all _ _ _) eqn:E; simpl; intros H; [|discriminate H]. injection H as <-.
    eapply walk_v1_closed; eauto.
Qed.

Lemma gissue_missing ver g h n d c : gissue bd ver g h (MissingBatch n d c) <->
  c = Absent /\ ch_num h = n /\ In d (named (ch_sub h)) /\ ~ In d (digs bd g).
Proof.
  unfold gissue. split.
  - intros [[e [E [A B]]]|[[e [E _]]|[_ [E _]]]]; try discriminate E. injection E as -> -> ->. auto.
  - intros [-> [<- [A B]]]. left. exists d. auto.
Qed.
Lemma gissue_extra ver g h n d : gissue bd ver g h (ExtraBatch n d) <->
  ch_num h = n /\ In d (digs bd g) /\ ~ In d (named (ch_sub h)).
Proof.
  unfold gissue. split.
  - intros [[e [E _]]|[[e [E [A B]]]|[_ [E _]]]]; try discriminate E. injection E as -> ->. auto.
  - intros [<- [A B]]. right. left. exists d. auto.
Qed.
Lemma gissue_unsorted ver g h n : gissue bd ver g h (UnsortedBatches n) <->
  ver <> 0 /\ ch_num h = n /\ (forall d, In d (named (ch_sub h)) <-> In d (digs bd g)) /\ ~ ssorted (digs bd g).
Proof.
  unfold gissue. split.
  - intros [[e [E _]]|[[e [E _]]|[A [E B]]]]; try discriminate E. injection E as ->. auto.
  - intros [A [<- B]]. right. right. auto.
Qed.
Lemma gissue_other ver g h x : gissue bd ver g h x ->
  match x with MissingBatch _ _ _ | ExtraBatch _ _ | UnsortedBatches _ => True | _ => False end.
Proof. unfold gissue. intros [[e [-> _]]|[[e [-> _]]|[_ [-> _]]]]; exact I. Qed.
Lemma lin_other start anchor a h x : lin hd start anchor a h x ->
  match x with NonSequential _ _ | ChainBreak _ _ _ => True | _ => False end.
Proof. unfold lin. intros [[-> _]|[p [-> _]]]; exact I. Qed.

Lemma report_issues ver epoch prev m recs w x : walked ver epoch prev m recs = Some w ->
  (In x (map (resolve (w_all w)) (w_issues w)) <-> problem ver epoch prev m recs x).
Proof.
  intros W. apply walked_inv in W. destruct W as [_ [_ [_ [_ [_ [I6 I7]]]]]].
  set (v := if ver =? 0 then 0 else 1) in *.
  assert (Gv : forall a b, grp v a b = grp ver a b).
  { intros a b. unfold v. destruct (N.eqb_spec ver 0) as [->|H]; auto. symmetry. apply grp_ver; auto. }
  assert (Vz : v <> 0 <-> ver <> 0).
  { unfold v. destruct (N.eqb_spec ver 0); split; intros; congruence || lia. }
  assert (NR : forall y, match y with MissingBatch _ _ _ => False | _ => True end ->
             (In y (map (resolve (w_all w)) (w_issues w)) <-> In y (w_issues w))).
  { intros y Hy. rewrite in_map_iff. split.
    - intros [z [E Z]]. destruct z; simpl in E; subst y; auto. destruct Hy.
    - intros Z. exists y. split; auto. destruct y; auto. destruct Hy. }
  assert (Init : forall y, In y (meta_issues epoch prev m) -> y = MetaMismatch) by (intros y Hy; apply meta_issues_in in Hy; tauto).
  destruct x as [n e f|n d c|n d|n|e f|].
  - rewrite NR, I7 by exact I. simpl. split.
    + intros [H|[[H _]|[[a [h [b [E L]]]]|[a [h [b [_ [_ G]]]]]]]]; [apply Init in H; discriminate H|discriminate H| |apply gissue_other in G; destruct G].
      destruct L as [[L _]|[p [L [P Q]]]]; [discriminate L|]. injection L as -> -> ->. exists a, h, b. auto.
    + intros [a [h [b [E [<- [<- [P Q]]]]]]]. right. right. left. exists a, h, b. split; auto. right. exists e. auto.
  - rewrite in_map_iff. cbn [PvSpec.problem]. split.
    + intros [z [E Z]]. destruct z as [| n' d' c'| | | |]; simpl in E; try discriminate E. injection E as -> -> <-.
      apply I7 in Z. destruct Z as [H|[[H _]|[[a [h [b [_ L]]]]|[a [h [b [E [_ G]]]]]]]]; [apply Init in H; discriminate H|discriminate H|apply lin_other in L; destruct L|].
      apply gissue_missing in G. destruct G as [-> [<- [G1 G2]]]. rewrite Gv in G2. split.
      * exists a, h, b. rewrite (grouped_iff bd). auto.
      * assert (A : In d (w_all w) <-> exists x, In (RBatch x) recs /\ bd x = d) by (rewrite I6; apply digs_in).
        destruct (memN d (w_all w)) eqn:M; [apply memN_In, A in M; auto|]. apply memN_nIn in M. rewrite A in M. exact M.
    + intros [[a [h [b [E [<- [G1 G2]]]]]] C]. exists (MissingBatch (ch_num h) d Absent). split.
      * simpl. f_equal. assert (A : In d (w_all w) <-> exists x, In (RBatch x) recs /\ bd x = d) by (rewrite I6; apply digs_in).
        destruct (memN d (w_all w)) eqn:M; [apply memN_In, A in M|apply memN_nIn in M; rewrite A in M]; destruct c; auto; contradiction.
      * apply I7. right. right. right. exists a, h, b. split; auto. split; auto. apply gissue_missing. rewrite Gv, <- (grouped_iff bd). auto.
  - rewrite NR, I7 by exact I. simpl. split.
    + intros [H|[[H _]|[[a [h [b [_ L]]]]|[a [h [b [E [_ G]]]]]]]]; [apply Init in H; discriminate H|discriminate H|apply lin_other in L; destruct L|].
      apply gissue_extra in G. rewrite Gv in G. exists a, h, b. rewrite (grouped_iff bd). tauto.
    + intros [a [h [b [E [<- [G1 G2]]]]]]. right. right. right. exists a, h, b. split; auto. split; auto. apply gissue_extra. rewrite Gv, <- (grouped_iff bd). auto.
  - rewrite NR, I7 by exact I. simpl. split.
    + intros [H|[[H _]|[[a [h [b [_ L]]]]|[a [h [b [E [_ G]]]]]]]]; [apply Init in H; discriminate H|discriminate H|apply lin_other in L; destruct L|].
      apply gissue_unsorted in G. rewrite Gv in G. destruct G as [G1 [G2 [G3 G4]]]. split; [tauto|]. exists a, h, b.
      split; auto. split; auto. split; [intros d; rewrite (grouped_iff bd); auto|]. apply disordered_iff. auto.
    + intros [Hv [a [h [b [E [<- [G1 G2]]]]]]]. right. right. right. exists a, h, b. split; auto. split; auto. apply gissue_unsorted.
      rewrite Gv. split; [tauto|]. split; auto. split; [intros d; rewrite <- (grouped_iff bd); auto|]. apply disordered_iff. auto.
  - rewrite NR, I7 by exact I. simpl. split.
    + intros [H|[[H _]|[[a [h [b [E L]]]]|[a [h [b [_ [_ G]]]]]]]]; [apply Init in H; discriminate H|discriminate H| |apply gissue_other in G; destruct G].
      destruct L as [[L Q]|[p [L _]]]; [|discriminate L]. injection L as -> ->. exists a, h, b. auto.
    + intros [a [h [b [E [<- [-> Q]]]]]]. right. right. left. exists a, h, b. split; auto. left. auto.
  - rewrite NR, I7, meta_issues_in by exact I. simpl. split.
    + intros [[_ [H|H]]|[[_ H]|[[a [h [b [_ L]]]]|[a [h [b [_ [_ G]]]]]]]]; auto; [apply lin_other in L; destruct L|apply gissue_other in G; destruct G].
    + intros [H|[H|H]]; auto.
Qed.

(** A file without problems, spelled out. *)
Definition clean (ver : N) (n : N) (anchor : option N) (recs : list rec) : Prop :=
  forall a h b, recs = a ++ RHeader h :: b ->
    ch_num h = n + N.of_nat (length (filter is_header a)) /\
    (forall p, expected_parent hd anchor a p -> ch_parent h = p) /\
    (forall d, In d (named (ch_sub h)) <-> In d (digs bd (grp ver a b))) /\
    (ver <> 0 -> ssorted (digs bd (grp ver a b))).

Lemma ssorted_dec l : ssorted l \/ ~ ssorted l.
Proof.
  induction l as [|x l [IH|IH]]; [left; constructor| |].
  - destruct (Forall_dec (fun y => x < y) (fun y => Nlt_dec x y) l) as [F|F]; [left; constructor; auto|].
    right. intros S. apply StronglySorted_inv in S. tauto.
  - right. intros S. apply StronglySorted_inv in S. tauto.
Qed.

Lemma no_problem ver epoch prev m recs :
  (forall x, ~ problem ver epoch prev m recs x) <->
  m_epoch m = epoch /\ (forall p, prev = Some p -> verify_epoch_meta epoch p m = true) /\
  (forall y, ~ In (RMeta y) recs) /\ clean ver (m_start m) (anchor_of epoch prev) recs.
Proof.
  split.
  - intros H. split; [destruct (N.eq_dec (m_epoch m) epoch); auto; exfalso; apply (H MetaMismatch); simpl; auto|].
    split; [intros p E; destruct (verify_epoch_meta epoch p m) eqn:V; auto; exfalso; apply (H MetaMismatch); simpl; right; left; eauto|].
    split; [intros y Hy; apply (H MetaMismatch); simpl; right; right; eauto|].
    intros a h b E.
    assert (Same : forall d, In d (named (ch_sub h)) <-> In d (digs bd (grp ver a b))).
    { intros d. split; intros Hd.
      - destruct (memN d (digs bd (grp ver a b))) eqn:M; [apply memN_In; auto|]. apply memN_nIn in M. exfalso.
        destruct (memN d (digs bd recs)) eqn:M2.
        + apply memN_In, digs_in in M2. apply (H (MissingBatch (ch_num h) d Misordered)). simpl. split; auto.
          exists a, h, b. rewrite (grouped_iff bd). auto.
        + apply memN_nIn in M2. rewrite digs_in in M2. apply (H (MissingBatch (ch_num h) d Absent)). simpl. split; auto.
          exists a, h, b. rewrite (grouped_iff bd). auto.
      - destruct (memN d (named (ch_sub h))) eqn:M; [apply memN_In; auto|]. apply memN_nIn in M. exfalso.
        apply (H (ExtraBatch (ch_num h) d)). simpl. exists a, h, b. rewrite (grouped_iff bd). auto. }
    split; [|split; [|split; [exact Same|]]].
    + destruct (N.eq_dec (ch_num h) (m_start m + N.of_nat (length (filter is_header a)))); auto. exfalso.
      apply (H (NonSequential (m_start m + N.of_nat (length (filter is_header a))) (ch_num h))). simpl. exists a, h, b. auto.
    + intros p P. destruct (N.eq_dec (ch_parent h) p); auto. exfalso.
      apply (H (ChainBreak (ch_num h) p (ch_parent h))). simpl. exists a, h, b. auto 10.
    + intros Hv. destruct (ssorted_dec (digs bd (grp ver a b))) as [S|S]; auto. exfalso.
      apply (H (UnsortedBatches (ch_num h))). simpl. split; auto. exists a, h, b. split; auto. split; auto.
      split; [intros d; rewrite (grouped_iff bd); auto|]. apply disordered_iff. auto.
  - intros [E1 [E2 [E3 C]]] x P. destruct x as [n e f|n d c|n d|n|e f|]; simpl in P.
    + destruct P as [a [h [b [E [<- [<- [P Q]]]]]]]. destruct (C _ _ _ E) as [_ [C2 _]]. apply Q. symmetry. apply C2. exact P.
    + destruct P as [[a [h [b [E [<- [P Q]]]]]] _]. destruct (C _ _ _ E) as [_ [_ [C3 _]]]. apply Q, grouped_iff, C3. auto.
    + destruct P as [a [h [b [E [<- [P Q]]]]]]. destruct (C _ _ _ E) as [_ [_ [C3 _]]]. apply Q, C3, (grouped_iff bd). auto.
    + destruct P as [Hv [a [h [b [E [<- [P Q]]]]]]]. destruct (C _ _ _ E) as [_ [_ [_ C4]]]. apply disordered_iff in Q. auto.
    + destruct P as [a [h [b [E [<- [-> Q]]]]]]. destruct (C _ _ _ E) as [C1 _]. auto.
    + destruct P as [P|[[p [P Q]]|[y Q]]]; [congruence|specialize (E2 _ P); congruence|apply (E3 _ Q)].
Qed.
End P.
