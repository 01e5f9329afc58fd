(** Proofs for C62: both walks, and the report. *)
From Verif Require Import Util OutModel OutSpec OutProofs ImpModel ImpProofs PvModel PvSpec PvProofs.
Local Open Scope N_scope.
Set Default Proof Using "Type".

Lemma walk_all_snoc step l : forall r w, walk_all step (l ++ [r]) w = match walk_all step l w with None => None | Some v => step v r end.
Proof. induction l as [|y t IH]; intros r w; simpl; [destruct (step w r); auto|]. destruct (step w y); auto. Qed.

Section P.
Variable bd : N -> N.
Variable hd : N -> subdag -> N -> N.
Variable dec : N -> emeta.
Notation digs := (digs bd).
Notation gissue := (gissue bd).

Lemma refer_fold n ds : forall w, let w' := fold_left (refer n) ds w in
  w_bc w' = w_bc w /\ w_cc w' = w_cc w /\ w_first w' = w_first w /\ w_last w' = w_last w /\
  w_parent w' = w_parent w /\ w_all w' = w_all w /\ w_group w' = w_group w /\ w_open w' = w_open w /\
  (forall d, In d (w_refd w') <-> In d (w_refd w) \/ (In d ds /\ In d (w_group w))) /\
  (forall x, In x (w_issues w') <-> In x (w_issues w) \/ exists d, x = MissingBatch n d Absent /\ In d ds /\ ~ In d (w_group w)).
Proof. clear hd dec bd.
  induction ds as [|d ds IH]; intros w; simpl.
  - do 8 (split; [auto|]). split; [intros; tauto|]. intros x. split; auto. intros [H|[d [_ [[] _]]]]; auto.
  - destruct (IH (refer n w d)) as [A1 [A2 [A3 [A4 [A5 [A6 [A7 [A8 [A9 A10]]]]]]]]].
    rewrite A1, A2, A3, A4, A5, A6, A7, A8. unfold refer in *. destruct (memN d (w_group w)) eqn:E.
    + apply memN_In in E. cbn in *. do 8 (split; [auto|]). split.
      * intros e. rewrite A9, hset_put_in. split; [intros [[->|H]|[H1 H2]]; auto|intros [H|[[<-|H1] H2]]; auto].
      * intros x. rewrite A10. split.
        -- intros [H|[e [H1 [H2 H3]]]]; auto. right. exists e. auto.
        -- intros [H|[e [H1 [[<-|H2] H3]]]]; auto; [contradiction|]. right. exists e. auto.
    + apply memN_nIn in E. cbn in *. do 8 (split; [auto|]). split.
      * intros e. rewrite A9. split; [intros [H|[H1 H2]]; auto|intros [H|[[<-|H1] H2]]; auto; contradiction].
      * intros x. rewrite A10, in_app_iff. simpl. split.
        -- intros [[H|[<-|[]]]|[e [H1 [H2 H3]]]]; auto; right; [exists d; auto|exists e; auto].
        -- intros [H|[e [H1 [[<-|H2] H3]]]]; auto. right. exists e. auto.
Qed.

Lemma extras_fold n ds : forall w, let w' := fold_left (fun w d => push (ExtraBatch n d) w) ds w in
  w_bc w' = w_bc w /\ w_cc w' = w_cc w /\ w_first w' = w_first w /\ w_last w' = w_last w /\
  w_parent w' = w_parent w /\ w_all w' = w_all w /\ w_open w' = w_open w /\
  (forall x, In x (w_issues w') <-> In x (w_issues w) \/ exists d, x = ExtraBatch n d /\ In d ds).
Proof.
  induction ds as [|d ds IH]; intros w; simpl.
  - do 7 (split; [auto|]). intros x. split; auto. intros [H|[d [_ []]]]; auto.
  - destruct (IH (push (ExtraBatch n d) w)) as [A1 [A2 [A3 [A4 [A5 [A6 [A7 A8]]]]]]].
    rewrite A1, A2, A3, A4, A5, A6, A7. do 7 (split; [auto|]). intros x. rewrite A8. unfold push; simpl. rewrite in_app_iff. simpl. split.
    + intros [[H|[<-|[]]]|[e [H1 H2]]]; auto; right; [exists d; auto|exists e; auto].
    + intros [H|[e [H1 [<-|H2]]]]; auto. right. exists e. auto.
Qed.

(** A version 0 header against its group. *)
Lemma judge0 g w h : (forall d, In d (w_group w) <-> In d (digs g)) -> w_refd w = [] ->
  let w' := extras0 (ch_num h) (fold_left (fun w oh => fold_left (refer (ch_num h)) (oh_payload oh) w) (sd_hdrs (ch_sub h)) w) in
  w_bc w' = w_bc w /\ w_cc w' = w_cc w /\ w_first w' = w_first w /\ w_last w' = w_last w /\
  w_all w' = w_all w /\ (forall x, In x (w_issues w') <-> In x (w_issues w) \/ gissue 0 g h x).
Proof.
  intros Hg Hr w'. unfold w'; clear w'. rewrite fold_concat. fold (named (ch_sub h)).
  destruct (refer_fold (ch_num h) (named (ch_sub h)) w) as [A1 [A2 [A3 [A4 [A5 [A6 [A7 [A8 [A9 A10]]]]]]]]].
  set (v := fold_left (refer (ch_num h)) (named (ch_sub h)) w) in *. unfold extras0.
  destruct (extras_fold (ch_num h) (filter (fun d => negb (memN d (w_refd v))) (w_group v)) v) as [B1 [B2 [B3 [B4 [B5 [B6 [B7 B8]]]]]]].
  rewrite B1, B2, B3, B4, B6, A1, A2, A3, A4, A6. do 5 (split; [auto|]). intros x. rewrite B8, A10. unfold PvProofs.gissue. split.
  - intros [[H|[d [H1 [H2 H3]]]]|[d [H1 H2]]]; auto.
    + right. left. exists d. rewrite <- Hg. auto.
    + right. right. left. exists d. apply filter_In in H2. rewrite A7, negb_true_iff, memN_nIn, A9, Hr in H2.
      destruct H2 as [H2 H3]. rewrite <- Hg. split; auto. split; auto.
  - intros [H|[[d [H1 [H2 H3]]]|[[d [H1 [H2 H3]]]|[H _]]]]; auto.
    + left. right. exists d. rewrite Hg. auto.
    + right. exists d. split; auto. apply filter_In. rewrite A7, negb_true_iff, memN_nIn, A9, Hr, !Hg. split; auto.
      intros [[]|[C _]]; contradiction.
    + congruence.
Qed.

Lemma g_snoc0 l r x :
  (exists a h b, l ++ [r] = a ++ RHeader h :: b /\ True /\ gissue 0 (grp 0 a b) h x) <->
  (exists a h b, l = a ++ RHeader h :: b /\ True /\ gissue 0 (grp 0 a b) h x) \/
  (exists h, r = RHeader h /\ gissue 0 (tailr l) h x).
Proof.
  split.
  - intros [a [h [b [E [_ L]]]]]. destruct (split_snoc _ _ _ _ _ E) as [[-> [-> ->]]|[b' [-> ->]]].
    + right. exists h. auto.
    + left. exists a, h, b'. auto.
  - intros [[a [h [b [-> [_ L]]]]]|[h [-> L]]].
    + exists a, h, (b ++ [r]). rewrite <- app_assoc. auto.
    + exists l, h, []. auto.
Qed.

Lemma bad_snoc l r : In RBad (l ++ [r]) <-> In RBad l \/ r = RBad.
Proof. rewrite in_app_iff. simpl. intuition. Qed.
Lemma meta_snoc l r : (exists y, In (RMeta y) (l ++ [r])) <-> (exists y, In (RMeta y) l) \/ exists y, r = RMeta y.
Proof.
  split.
  - intros [y H]. apply in_app_iff in H. destruct H as [H|[H|[]]]; eauto.
  - intros [[y H]|[y ->]]; exists y; apply in_app_iff; simpl; auto.
Qed.
Lemma digs_snoc l r d : In d (digs (l ++ [r])) <-> In d (digs l) \/ match r with RBatch b => d = bd b | _ => False end.
Proof. clear hd dec. rewrite digs_app, in_app_iff. destruct r; simpl; intuition. Qed.

Notation start0 anchor init := (walk0 anchor init).

Lemma walk_v0 start anchor init l :
  (walk_all (step_v0 bd hd start) l (start0 anchor init) = None <-> In RBad l) /\
  forall w, walk_all (step_v0 bd hd start) l (start0 anchor init) = Some w ->
    inv bd hd 0 start anchor init (fun _ => True) l w /\ w_refd w = [] /\
    (forall d, In d (w_group w) <-> In d (digs (tailr l))).
Proof. clear dec.
  induction l as [|r l IH] using rev_ind.
  - simpl. split; [split; [intros H; discriminate H|tauto]|]. intros w H; injection H as <-. unfold inv; simpl.
    assert (Z : forall a h b, [] = a ++ RHeader h :: b -> False) by (intros [|? ?] h b H; discriminate H).
    split; [|split; [auto|intros; simpl; tauto]]. split; [auto|]. split; [auto|].
    split; [intros n; split; [intros H; discriminate H|intros [a [h [b [E _]]]]; destruct (Z _ _ _ E)]|].
    split; [intros n; split; [intros H; discriminate H|intros [a [h [b [E _]]]]; destruct (Z _ _ _ E)]|].
    split; [apply parent_nil|]. split; [tauto|].
    intros x. split; auto. intros [H|[[_ [y []]]|[[a [h [b [E _]]]]|[a [h [b [E _]]]]]]]; auto; destruct (Z _ _ _ E).
  - destruct IH as [IH0 IH]. rewrite walk_all_snoc, bad_snoc.
    destruct (walk_all (step_v0 bd hd start) l (start0 anchor init)) as [w|]; [|split; [split; [left; apply IH0; auto|auto]|intros w H; discriminate H]].
    assert (NB : ~ In RBad l) by (intros C; apply IH0 in C; discriminate C). clear IH0.
    destruct (IH w eq_refl) as [[I1 [I2 [I3 [I4 [I5 [I6 I7]]]]]] [Hr Hg]]. clear IH.
    pose proof (first_snoc l r _ I3) as F3. pose proof (last_snoc l r _ I4) as F4. pose proof (fun y => lin_snoc hd start anchor l r y) as L.
    destruct r as [m|h|b|]; cbn [step_v0] in *.
    + split; [split; [intros H; discriminate H|intros [H|H]; [contradiction|discriminate H]]|]. intros w' H; injection H as <-.
      unfold inv. cbn [push w_bc w_cc w_first w_last w_issues w_parent w_group w_refd w_all w_open]. rewrite !count_snoc, tailr_snoc. cbn [is_batch is_header].
      split; [|split; [auto|intros d; rewrite digs_snoc, Hg; tauto]]. split; [lia|]. split; [lia|]. split; [auto|]. split; [auto|].
      split; [apply parent_snoc_other; auto|]. split; [intros d; rewrite digs_snoc, I6; tauto|].
      intros x. rewrite L, g_snoc0, in_app_iff, meta_snoc, I7. simpl. split.
      * intros [[H|[H|[H|H]]]|[<-|[]]]; try tauto. right. left. eauto.
      * intros [H|[[-> [H|H]]|[[H|[h [H _]]]|[H|[h [H _]]]]]]; try tauto; discriminate H.
    + split; [split; [intros H; discriminate H|intros [H|H]; [contradiction|discriminate H]]|]. intros w' H; injection H as <-.
      destruct (header_checks_ok start h w) as [C1 [C2 [C3 [C4 [C5 [C6 [C7 [C8 [C9 C10]]]]]]]]].
      set (v := header_checks start h w) in *.
      destruct (judge0 (tailr l) v h) as [D1 [D2 [D3 [D4 [D5 D6]]]]]; [intros d; rewrite C7; auto|congruence|].
      unfold inv. cbn [w_bc w_cc w_first w_last w_issues w_parent w_group w_refd w_all w_open].
      rewrite D1, D2, D3, D4, D5, C1, C2, C3, C4, C6, !count_snoc, tailr_snoc. cbn [is_batch is_header].
      split; [|split; [auto|intros d; simpl; tauto]]. split; [lia|]. split; [lia|]. split; [clear - F3; destruct (w_first w); exact F3|]. split; [exact F4|].
      split; [apply parent_snoc_header|]. split; [intros d; rewrite digs_snoc, I6; tauto|].
      intros x. rewrite L, g_snoc0, meta_snoc, D6, C10, I7.
      assert (LL : (exists h', RHeader h = RHeader h' /\ lin hd start anchor l h' x) <->
        (x = NonSequential (start + w_cc w) (ch_num h) /\ start + w_cc w <> ch_num h) \/
        (exists p, w_parent w = Some p /\ x = ChainBreak (ch_num h) p (ch_parent h) /\ p <> ch_parent h)).
      { rewrite I2. unfold lin. split.
        - intros [h' [E [H|[p [H1 [H2 H3]]]]]]; injection E as <-; auto. right. exists p. rewrite (I5 p). auto.
        - intros [H|[p [H1 [H2 H3]]]]; exists h; split; auto. right. exists p. rewrite <- (I5 p). auto. }
      rewrite LL. split.
      * intros [[[H|[H|[H|H]]]|[H|H]]|H]; try tauto. right. right. right. right. exists h. auto.
      * intros [H|[[-> [H|[y H]]]|[[H|H]|[H|[h' [H1 H2]]]]]]; try tauto; try discriminate H. injection H1 as <-. tauto.
    + split; [split; [intros H; discriminate H|intros [H|H]; [contradiction|discriminate H]]|]. intros w' H; injection H as <-.
      unfold inv. cbn [w_bc w_cc w_first w_last w_issues w_parent w_group w_refd w_all w_open]. rewrite !count_snoc, tailr_snoc. cbn [is_batch is_header].
      split; [|split; [auto|intros d; rewrite digs_snoc, hset_put_in, Hg; tauto]]. split; [lia|]. split; [lia|]. split; [auto|]. split; [auto|].
      split; [apply parent_snoc_other; auto|]. split; [intros d; rewrite digs_snoc, hset_put_in, I6; tauto|].
      intros x. rewrite L, g_snoc0, meta_snoc, I7. split.
      * intros [H|[H|[H|H]]]; tauto.
      * intros [H|[[-> [H|[y H]]]|[[H|[h [H _]]]|[H|[h [H _]]]]]]; try tauto; discriminate H.
    + split; [split; auto|]. intros w' H; discriminate H.
Qed.

(** Closing a version 1 group. *)
Lemma close_refer_fold cs n ds : forall refd missing issues,
  let '(refd', missing', issues') := fold_left (close_refer cs n) ds (refd, missing, issues) in
  (forall d, In d refd' <-> In d refd \/ In d ds) /\ (ssorted refd -> ssorted refd') /\
  (missing' = true <-> missing = true \/ exists d, In d ds /\ ~ In d cs) /\
  (forall x, In x issues' <-> In x issues \/ exists d, x = MissingBatch n d Absent /\ In d ds /\ ~ In d cs).
Proof. clear hd dec bd.
  induction ds as [|d ds IH]; intros refd missing issues; simpl.
  - split; [tauto|]. split; [auto|]. split; [split; auto; intros [H|[d [[] _]]]; auto|]. intros x. split; auto. intros [H|[d [_ [[] _]]]]; auto.
  - destruct (memN d cs) eqn:E.
    + apply memN_In in E. specialize (IH (bset_put d refd) missing issues).
      destruct (fold_left _ ds _) as [[refd' missing'] issues']. destruct IH as [A [B [C D]]].
      split; [intros e; rewrite A, bset_put_in; intuition|]. split; [intros S; apply B, bset_put_sorted; auto|]. split.
      * rewrite C. split; [intros [H|[e [H1 H2]]]; eauto|intros [H|[e [[<-|H1] H2]]]; eauto; contradiction].
      * intros x. rewrite D. split; [intros [H|[e [H1 [H2 H3]]]]; eauto 6|intros [H|[e [H1 [[<-|H2] H3]]]]; eauto 6; contradiction].
    + apply memN_nIn in E. specialize (IH (bset_put d refd) true (issues ++ [MissingBatch n d Absent])).
      destruct (fold_left _ ds _) as [[refd' missing'] issues']. destruct IH as [A [B [C D]]].
      split; [intros e; rewrite A, bset_put_in; intuition|]. split; [intros S; apply B, bset_put_sorted; auto|]. split.
      * rewrite C. split; auto. intros _. right. eauto.
      * intros x. rewrite D, in_app_iff. simpl. split.
        -- intros [[H|[<-|[]]]|[e [H1 [H2 H3]]]]; eauto 6.
        -- intros [H|[e [H1 [[<-|H2] H3]]]]; eauto 6.
Qed.
Lemma close_extra_fold refd n cs : forall extra issues,
  let r := fold_left (fun acc d => if negb (memN d refd) then (true, snd acc ++ [ExtraBatch n d]) else acc) cs (extra, issues) in
  (fst r = true <-> extra = true \/ exists d, In d cs /\ ~ In d refd) /\
  (forall x, In x (snd r) <-> In x issues \/ exists d, x = ExtraBatch n d /\ In d cs /\ ~ In d refd).
Proof.
  induction cs as [|d cs IH]; intros extra issues; simpl.
  - split; [split; auto; intros [H|[d [[] _]]]; auto|]. intros x. split; auto. intros [H|[d [_ [[] _]]]]; auto.
  - destruct (memN d refd) eqn:E; cbn [negb].
    + apply memN_In in E. destruct (IH extra issues) as [A B]. split.
      * rewrite A. split; [intros [H|[e [H1 H2]]]; eauto|intros [H|[e [[<-|H1] H2]]]; eauto; contradiction].
      * intros x. rewrite B. split; [intros [H|[e [H1 [H2 H3]]]]; eauto 6|intros [H|[e [H1 [[<-|H2] H3]]]]; eauto 6; contradiction].
    + apply memN_nIn in E. cbn [snd]. destruct (IH true (issues ++ [ExtraBatch n d])) as [A B]. split.
      * rewrite A. split; eauto.
      * intros x. rewrite B, in_app_iff. simpl. split.
        -- intros [[H|[<-|[]]]|[e [H1 [H2 H3]]]]; eauto 6.
        -- intros [H|[e [H1 [[<-|H2] H3]]]]; eauto 6.
Qed.

Lemma close_ok h g issues x : In x (close_v1_group h (digs g) issues) <-> In x issues \/ gissue 1 g h x.
Proof. clear hd dec.
  unfold close_v1_group. rewrite fold_concat. fold (named (ch_sub h)).
  set (cs := fold_left (fun s d => hset_put d s) (digs g) []).
  assert (Hcs : forall d, In d cs <-> In d (digs g)) by (intros d; unfold cs; rewrite hset_fold_in; simpl; tauto).
  pose proof (close_refer_fold cs (ch_num h) (named (ch_sub h)) [] false issues) as H.
  destruct (fold_left (close_refer cs (ch_num h)) (named (ch_sub h)) ([], false, issues)) as [[refd missing] iss1].
  destruct H as [A [B [C D]]]. assert (B' : ssorted refd) by (apply B; constructor). clear B.
  pose proof (close_extra_fold refd (ch_num h) cs false iss1) as H. cbv zeta in H.
  destruct (fold_left (fun acc d => if negb (memN d refd) then (true, snd acc ++ [ExtraBatch (ch_num h) d]) else acc) cs (false, iss1)) as [extra iss2].
  cbn [fst snd] in H. destruct H as [E F].
  assert (A' : forall d, In d refd <-> In d (named (ch_sub h))) by (intros d; rewrite A; simpl; tauto). clear A.
  assert (Base : In x iss2 <-> In x issues \/ (exists d, x = MissingBatch (ch_num h) d Absent /\ In d (named (ch_sub h)) /\ ~ In d (digs g)) \/
                 (exists d, x = ExtraBatch (ch_num h) d /\ In d (digs g) /\ ~ In d (named (ch_sub h)))).
  { rewrite F, D. split.
    - intros [[H|[d [H1 [H2 H3]]]]|[d [H1 [H2 H3]]]]; auto; right; [left|right]; exists d; rewrite Hcs, ?A' in *; auto.
    - intros [H|[[d [H1 [H2 H3]]]|[d [H1 [H2 H3]]]]]; auto; [left; right|right]; exists d; rewrite ?Hcs, ?A' in *; auto. }
  assert (Same : negb missing && negb extra = true <-> (forall d, In d (named (ch_sub h)) <-> In d (digs g))).
  { rewrite andb_true_iff, !negb_true_iff. split.
    - intros [M X] d. split; intros Hd.
      + destruct (memN d (digs g)) eqn:Y; [apply memN_In; auto|]. apply memN_nIn in Y. exfalso.
        assert (missing = true) as Z; [|congruence]. apply C. right. exists d. rewrite Hcs. auto.
      + destruct (memN d (named (ch_sub h))) eqn:Y; [apply memN_In; auto|]. apply memN_nIn in Y. exfalso.
        assert (extra = true) as Z; [|congruence]. apply E. right. exists d. rewrite Hcs, A'. auto.
    - intros S. split.
      + destruct missing; auto. destruct (proj1 C eq_refl) as [Z|[d [H1 H2]]]; [discriminate Z|]. rewrite Hcs in H2. apply S in H1. contradiction.
      + destruct extra; auto. destruct (proj1 E eq_refl) as [Z|[d [H1 H2]]]; [discriminate Z|]. rewrite Hcs, A' in *. apply S in H1. contradiction. }
  unfold PvProofs.gissue. destruct (negb missing && negb extra) eqn:Eb.
  - pose proof (proj1 Same eq_refl) as S.
    assert (Q : list_eqb (digs g) refd = true <-> ssorted (digs g)).
    { rewrite list_eqb_eq. split; [intros ->; auto|]. intros Sg. apply sorted_ext; auto. intros d. rewrite A'. symmetry. apply S. }
    destruct (list_eqb (digs g) refd) eqn:El; cbn [negb].
    + rewrite Base. split; [intros [H|[H|H]]; auto|]. intros [H|[H|[H|[_ [_ [_ H]]]]]]; auto. exfalso. apply H, Q. auto.
    + rewrite in_app_iff, Base. simpl. split.
      * intros [[H|[H|H]]|[<-|[]]]; auto. right. right. right. split; [discriminate|]. split; auto. split; auto. intros Z. apply Q in Z. discriminate Z.
      * intros [H|[H|[H|[_ [-> _]]]]]; auto.
  - rewrite Base. split; [intros [H|[H|H]]; auto|]. intros [H|[H|[H|[_ [_ [S _]]]]]]; auto. apply Same in S. discriminate S.
Qed.

(** Version 1: a group is judged when the next header comes. *)
Definition closed (b : list rec) : Prop := ~ no_header b.
Lemma headr_snoc_has b r : ~ no_header b -> headr (b ++ [r]) = headr b.
Proof.
  intros H. destruct (headr_split b) as [[A _]|[h [c E]]]; [contradiction|].
  rewrite E at 1. rewrite <- app_assoc, headr_pre by apply headr_no. simpl. apply app_nil_r.
Qed.
Lemma grp1_snoc a b r : ~ no_header b -> grp 1 a (b ++ [r]) = grp 1 a b.
Proof. intros H. unfold grp. cbn [N.eqb]. rewrite headr_snoc_has; auto. Qed.
Lemma grp1_close a b h : no_header b -> grp 1 a (b ++ [RHeader h]) = grp 1 a b.
Proof. intros H. unfold grp. cbn [N.eqb]. rewrite (headr_pre b _ H), (headr_all b H). simpl. rewrite app_nil_r. auto. Qed.
Lemma no_header_dec b : no_header b \/ ~ no_header b.
Proof. rewrite <- has_header_false. destruct (has_header b); [right; congruence|left; auto]. Qed.

Lemma g_snoc1 l r x :
  (exists a h b, l ++ [r] = a ++ RHeader h :: b /\ closed b /\ gissue 1 (grp 1 a b) h x) <->
  (exists a h b, l = a ++ RHeader h :: b /\ closed b /\ gissue 1 (grp 1 a b) h x) \/
  (is_header r = true /\ exists a h b, l = a ++ RHeader h :: b /\ no_header b /\ gissue 1 (grp 1 a b) h x).
Proof.
  split.
  - intros [a [h [b [E [S L]]]]]. destruct (split_snoc _ _ _ _ _ E) as [[-> [-> ->]]|[b' [-> ->]]].
    + exfalso. apply S. intros k [].
    + destruct (no_header_dec b') as [Nb|Nb].
      * right. destruct r as [m|h'|c|].
        1,3,4: exfalso; apply S, no_header_app; split; auto; apply no_header_cons; split; auto; intros k [].
        split; auto. exists a, h, b'. rewrite grp1_close in L; auto.
      * left. exists a, h, b'. rewrite grp1_snoc in L; auto.
  - intros [[a [h [b [-> [S L]]]]]|[R [a [h [b [-> [S L]]]]]]]; exists a, h, (b ++ [r]); rewrite <- app_assoc; split; auto.
    + rewrite grp1_snoc; auto. split; auto. intros C. apply no_header_app in C. apply S. tauto.
    + destruct r as [m|h'|c|]; try discriminate R. rewrite grp1_close; auto. split; auto.
      intros C. apply no_header_app in C. destruct C as [_ C]. apply (C h'). simpl; auto.
Qed.

Definition open_ok (l : list rec) (w : walk) : Prop :=
  match w_open w with
  | None => no_header l /\ w_group w = digs l
  | Some h => exists a b, l = a ++ RHeader h :: b /\ no_header b /\ w_group w = digs (grp 1 a b)
  end.
Lemma grp1_grow a b r : no_header b -> is_header r = false -> digs (grp 1 a (b ++ [r])) = digs (grp 1 a b) ++ digs [r].
Proof.
  intros H R. unfold grp. cbn [N.eqb]. rewrite !headr_all; auto.
  - rewrite !digs_app, <- app_assoc. auto.
  - apply no_header_app. split; auto. apply no_header_cons. split; auto. intros k [].
Qed.
Lemma open_grow l w r w' : is_header r = false -> open_ok l w -> w_open w' = w_open w -> w_group w' = w_group w ++ digs [r] -> open_ok (l ++ [r]) w'.
Proof.
  unfold open_ok. intros R O E G. rewrite E, G.
  assert (Nr : no_header [r]) by (apply no_header_cons; split; auto; intros k []).
  destruct (w_open w) as [h|].
  - destruct O as [a [b [-> [Nb ->]]]]. exists a, (b ++ [r]). rewrite <- app_assoc. split; auto. split; [apply no_header_app; auto|]. rewrite grp1_grow; auto.
  - destruct O as [Nl ->]. split; [apply no_header_app; auto|]. rewrite digs_app. auto.
Qed.

Lemma close_open_ok l w : open_ok l w ->
  let w' := close_open w in
  w_bc w' = w_bc w /\ w_cc w' = w_cc w /\ w_first w' = w_first w /\ w_last w' = w_last w /\
  w_parent w' = w_parent w /\ w_all w' = w_all w /\
  w_group w' = (if has_header l then [] else digs l) /\
  (forall x, In x (w_issues w') <-> In x (w_issues w) \/ exists a h b, l = a ++ RHeader h :: b /\ no_header b /\ gissue 1 (grp 1 a b) h x).
Proof.
  unfold open_ok, close_open. destruct (w_open w) as [h|]; intros O.
  - destruct O as [a [b [-> [Nb G]]]]. cbn. do 6 (split; [auto|]). split.
    + destruct (has_header (a ++ RHeader h :: b)) eqn:E; auto. apply has_header_false in E. exfalso. apply (E h). apply in_app_iff; simpl; auto.
    + intros x. rewrite G, close_ok. split.
      * intros [H|H]; auto. right. exists a, h, b. auto.
      * intros [H|[a' [h' [b' [E [Nb' H]]]]]]; auto. apply last_split in E; auto. destruct E as [-> [-> ->]]. auto.
  - destruct O as [Nl G]. cbv zeta. do 6 (split; [auto|]). rewrite (proj2 (has_header_false l) Nl). split; auto.
    intros x. split; auto. intros [H|[a [h [b [-> _]]]]]; auto. exfalso. apply (Nl h). apply in_app_iff; simpl; auto.
Qed.

Lemma walk_v1 start anchor init l :
  (walk_all (step_v1 bd hd start) l (start0 anchor init) = None <-> In RBad l) /\
  forall w, walk_all (step_v1 bd hd start) l (start0 anchor init) = Some w ->
    inv bd hd 1 start anchor init closed l w /\ open_ok l w.
Proof. clear dec.
  induction l as [|r l IH] using rev_ind.
  - simpl. split; [split; [intros H; discriminate H|tauto]|]. intros w H; injection H as <-. unfold inv, open_ok; simpl.
    assert (Z : forall a h b, [] = a ++ RHeader h :: b -> False) by (intros [|? ?] h b H; discriminate H).
    split; [|split; [intros h []|auto]]. split; [auto|]. split; [auto|].
    split; [intros n; split; [intros H; discriminate H|intros [a [h [b [E _]]]]; destruct (Z _ _ _ E)]|].
    split; [intros n; split; [intros H; discriminate H|intros [a [h [b [E _]]]]; destruct (Z _ _ _ E)]|].
    split; [apply parent_nil|]. split; [tauto|].
    intros x. split; auto. intros [H|[[_ [y []]]|[[a [h [b [E _]]]]|[a [h [b [E _]]]]]]]; auto; destruct (Z _ _ _ E).
  - destruct IH as [IH0 IH]. rewrite walk_all_snoc, bad_snoc.
    destruct (walk_all (step_v1 bd hd start) l (start0 anchor init)) as [w|]; [|split; [split; [left; apply IH0; auto|auto]|intros w H; discriminate H]].
    assert (NB : ~ In RBad l) by (intros C; apply IH0 in C; discriminate C). clear IH0.
    destruct (IH w eq_refl) as [[I1 [I2 [I3 [I4 [I5 [I6 I7]]]]]] Ho]. clear IH.
    pose proof (first_snoc l r _ I3) as F3. pose proof (last_snoc l r _ I4) as F4. pose proof (fun y => lin_snoc hd start anchor l r y) as L.
    destruct r as [m|h|b|]; cbn [step_v1] in *.
    + split; [split; [intros H; discriminate H|intros [H|H]; [contradiction|discriminate H]]|]. intros w' H; injection H as <-.
      split; [|apply (open_grow l w); auto; simpl; rewrite app_nil_r; auto].
      unfold inv. cbn [push w_bc w_cc w_first w_last w_issues w_parent w_group w_refd w_all w_open]. rewrite !count_snoc. cbn [is_batch is_header].
      split; [lia|]. split; [lia|]. split; [auto|]. split; [auto|].
      split; [apply parent_snoc_other; auto|]. split; [intros d; rewrite digs_snoc, I6; tauto|].
      intros x. rewrite L, g_snoc1, in_app_iff, meta_snoc, I7. simpl. split.
      * intros [[H|[H|[H|H]]]|[<-|[]]]; try tauto. right. left. eauto.
      * intros [H|[[-> [H|H]]|[[H|[h [H _]]]|[H|[H _]]]]]; try tauto; discriminate H.
    + split; [split; [intros H; discriminate H|intros [H|H]; [contradiction|discriminate H]]|]. intros w' H; injection H as <-.
      destruct (close_open_ok l w Ho) as [B1 [B2 [B3 [B4 [B5 [B6 [B7 B8]]]]]]]. set (u := close_open w) in *.
      destruct (header_checks_ok start h u) as [C1 [C2 [C3 [C4 [C5 [C6 [C7 [C8 [C9 C10]]]]]]]]].
      set (v := header_checks start h u) in *.
      split.
      2:{ unfold open_ok. cbn [w_open w_group]. exists l, []. split; auto. split; [intros k []|]. rewrite C7, B7. unfold grp. cbn [N.eqb headr].
          rewrite app_nil_r. destruct (has_header l); auto. }
      unfold inv. cbn [w_bc w_cc w_first w_last w_issues w_parent w_group w_refd w_all w_open].
      rewrite C1, C2, C3, C4, C6, B1, B2, B3, B6, !count_snoc. cbn [is_batch is_header].
      split; [lia|]. split; [lia|]. split; [clear - F3; destruct (w_first w); exact F3|]. split; [exact F4|].
      split; [apply parent_snoc_header|]. split; [intros d; rewrite digs_snoc, I6; tauto|].
      intros x. rewrite L, g_snoc1, meta_snoc, C10, B8, I7, B2, B5.
      assert (LL : (exists h', RHeader h = RHeader h' /\ lin hd start anchor l h' x) <->
        (x = NonSequential (start + w_cc w) (ch_num h) /\ start + w_cc w <> ch_num h) \/
        (exists p, w_parent w = Some p /\ x = ChainBreak (ch_num h) p (ch_parent h) /\ p <> ch_parent h)).
      { rewrite I2. unfold lin. split.
        - intros [h' [E [H|[p [H1 [H2 H3]]]]]]; injection E as <-; auto. right. exists p. rewrite (I5 p). auto.
        - intros [H|[p [H1 [H2 H3]]]]; exists h; split; auto. right. exists p. rewrite <- (I5 p). auto. }
      rewrite LL. cbn [is_header]. split.
      * intros [[[H|[H|[H|H]]]|H]|[H|H]]; try tauto.
      * intros [H|[[-> [H|[y H]]]|[[H|H]|[H|[_ H]]]]]; try tauto; discriminate H.
    + split; [split; [intros H; discriminate H|intros [H|H]; [contradiction|discriminate H]]|]. intros w' H; injection H as <-.
      split; [|apply (open_grow l w); auto].
      unfold inv. cbn [w_bc w_cc w_first w_last w_issues w_parent w_group w_refd w_all w_open]. rewrite !count_snoc. cbn [is_batch is_header].
      split; [lia|]. split; [lia|]. split; [auto|]. split; [auto|].
      split; [apply parent_snoc_other; auto|]. split; [intros d; rewrite digs_snoc, hset_put_in, I6; tauto|].
      intros x. rewrite L, g_snoc1, meta_snoc, I7. cbn [is_header]. split.
      * intros [H|[H|[H|H]]]; tauto.
      * intros [H|[[-> [H|[y H]]]|[[H|[h [H _]]]|[H|[H _]]]]]; try tauto; discriminate H.
    + split; [split; auto|]. intros w' H; discriminate H.
Qed.

(** The version 1 walk with its last group closed. *)
Lemma walk_v1_closed start anchor init l w : walk_all (step_v1 bd hd start) l (start0 anchor init) = Some w ->
  inv bd hd 1 start anchor init (fun _ => True) l (close_open w).
Proof. clear dec.
  intros H. apply walk_v1 in H. destruct H as [[I1 [I2 [I3 [I4 [I5 [I6 I7]]]]]] Ho].
  destruct (close_open_ok l w Ho) as [B1 [B2 [B3 [B4 [B5 [B6 [B7 B8]]]]]]]. unfold inv.
  rewrite B1, B2, B3, B4, B5, B6. do 6 (split; [auto|]). intros x. rewrite B8, I7. split.
  - intros [[H|[H|[H|[a [h [b [E [S G]]]]]]]]|[a [h [b [E [S G]]]]]]; try tauto; right; right; right; exists a, h, b; auto.
  - intros [H|[H|[H|[a [h [b [E [_ G]]]]]]]]; try tauto. destruct (no_header_dec b) as [Nb|Nb].
    + right. exists a, h, b. auto.
    + left. right. right. right. exists a, h, b. auto.
Qed.
End P.
