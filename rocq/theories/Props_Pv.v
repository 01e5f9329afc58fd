(** C62: the offline validator of an epoch's pack file. *)
From Verif Require Import Util OutModel OutSpec OutProofs ImpModel ImpSpec ImpProofs PvModel PvSpec PvProofs PvWalk PvReport PvImport PvAgree Props_Imp.
Local Open Scope N_scope.

Section T.
Variable bd : N -> N.
Variable hd : N -> subdag -> N -> N.
Variable dec : N -> emeta.
Variable idof : N -> N.
Variable per_auth : nat.
Notation validate := (validate bd hd dec).
Notation problem := (problem bd hd).

(** The validator fails exactly if the file does not start with the metadata or a record cannot be read; otherwise
    its report names exactly the problems of the file, and the verdict is valid exactly if there is none. *)
Theorem C62_report_exact ver epoch prev recs :
  (validate ver epoch prev recs = None <-> (forall x t, recs <> RMeta x :: t) \/ In RBad recs) /\
  forall x rest r, recs = RMeta x :: rest -> validate ver epoch prev recs = Some r ->
    (forall i, In i (r_issues r) <-> problem ver epoch prev (dec x) rest i) /\
    (r_valid r = true <-> forall i, ~ problem ver epoch prev (dec x) rest i).
Proof using Type.
  split.
  - destruct recs as [|[x|h|b|] rest]; try (split; [intros _; left; intros y t E; discriminate E|intros _; reflexivity]).
    rewrite validate_walked. split.
    + intros H. right. right. destruct (walked bd hd ver epoch prev (dec x) rest) eqn:W; [discriminate H|]. apply walked_none in W. exact W.
    + intros [H|[H|H]]; [destruct (H x rest eq_refl)|discriminate H|]. apply (walked_none bd hd ver epoch prev (dec x)) in H. rewrite H. reflexivity.
  - intros x rest r -> H. rewrite validate_walked in H. destruct (walked bd hd ver epoch prev (dec x) rest) as [w|] eqn:W; [|discriminate H].
    injection H as <-. cbn [finalize r_issues r_valid].
    pose proof (fun i => report_issues bd hd dec ver epoch prev (dec x) rest w i W) as K. split; [exact K|].
    split.
    + intros V i Hp. apply K in Hp. destruct (map _ _) as [|j l]; [destruct Hp|discriminate V].
    + intros Hn. destruct (map _ _) as [|j l]; [reflexivity|]. destruct (Hn j). apply K. left. reflexivity.
Qed.

(** The numbers of the report are those of the file. *)
Theorem C62_report_counts ver epoch prev x rest r : validate ver epoch prev (RMeta x :: rest) = Some r ->
  r_epoch r = epoch /\ r_start r = m_start (dec x) /\
  r_batches r = N.of_nat (length (filter is_batch rest)) /\ r_headers r = N.of_nat (length (filter is_header rest)) /\
  (forall n, r_first r = Some n <-> exists a h b, rest = a ++ RHeader h :: b /\ no_header a /\ n = ch_num h) /\
  (forall n, r_last r = Some n <-> exists a h b, rest = a ++ RHeader h :: b /\ no_header b /\ n = ch_num h).
Proof using Type.
  intros H. rewrite validate_walked in H. destruct (walked bd hd ver epoch prev (dec x) rest) as [w|] eqn:W; [|discriminate H].
  injection H as <-. apply (walked_inv bd hd dec) in W. destruct W as [A [B [C [D _]]]]. cbn [finalize r_epoch r_start r_batches r_headers r_first r_last].
  repeat (split; auto).
Qed.

(** A report never calls a referenced digest missing twice over: absent means the file has no batch of this digest,
    misordered that it has one, but not in the group of the header. *)
Theorem C62_missing_class ver epoch prev x rest r n d c : validate ver epoch prev (RMeta x :: rest) = Some r ->
  In (MissingBatch n d c) (r_issues r) ->
  (c = Absent <-> forall b, In (RBatch b) rest -> bd b <> d) /\
  exists a h b, rest = a ++ RHeader h :: b /\ ch_num h = n /\ In d (named (ch_sub h)) /\ ~ grouped bd ver a b d.
Proof using Type.
  intros H Hi. destruct (C62_report_exact ver epoch prev (RMeta x :: rest)) as [_ K]. destruct (K x rest r eq_refl H) as [K1 _].
  apply K1 in Hi. destruct Hi as [Hi Hc]. split; [|exact Hi]. destruct c; split; auto.
  - intros _ b Hb E. apply Hc. exists b. auto.
  - intros C; discriminate C.
  - intros C. destruct Hc as [b [Hb E]]. destruct (C b Hb E).
Qed.

(** Without the previous epoch's record the validator finds a subset: what it leaves out are the metadata checks against that
    record and the parent of the first header. *)
Theorem C62_previous ver epoch p x rest r0 r1 :
  validate ver epoch None (RMeta x :: rest) = Some r0 -> validate ver epoch (Some p) (RMeta x :: rest) = Some r1 ->
  (forall i, In i (r_issues r0) -> In i (r_issues r1)) /\
  (r_valid r1 = true <-> r_valid r0 = true /\ verify_epoch_meta epoch p (dec x) = true /\
     (epoch <> 0 -> forall a h b, rest = a ++ RHeader h :: b -> no_header a -> ch_parent h = er_chash p)).
Proof using Type.
  intros H0 H1. destruct (C62_report_exact ver epoch None (RMeta x :: rest)) as [_ K0]. destruct (K0 x rest r0 eq_refl H0) as [I0 V0].
  destruct (C62_report_exact ver epoch (Some p) (RMeta x :: rest)) as [_ K1]. destruct (K1 x rest r1 eq_refl H1) as [I1 V1].
  assert (Sub : forall i, problem ver epoch None (dec x) rest i -> problem ver epoch (Some p) (dec x) rest i).
  { intros i. destruct i; cbn [PvSpec.problem]; auto.
    - intros [a [h [b [E1 [E2 [E3 [E4 E5]]]]]]]. exists a, h, b. repeat (split; auto). destruct E4 as [E4|[E4 E6]]; [left; exact E4|].
      destruct (epoch =? 0); discriminate E6.
    - intros [Z|[[q [Z _]]|Z]]; [auto|discriminate Z|auto]. }
  split; [intros i Hi; apply I1, Sub, I0; exact Hi|]. rewrite V1, V0. split.
  - intros Hn. split; [intros i Hi; apply (Hn i), Sub; exact Hi|]. apply (no_problem bd hd dec) in Hn. destruct Hn as [N1 [N2 [N3 N4]]].
    split; [apply N2; reflexivity|]. intros He a h b E Ha. destruct (N4 a h b E) as [_ [N5 _]]. apply N5. right. split; [exact Ha|].
    unfold anchor_of. rewrite (proj2 (N.eqb_neq _ _) He). reflexivity.
  - intros [Hn [Hv Ha]]. apply (no_problem bd hd dec). apply (no_problem bd hd dec) in Hn. destruct Hn as [N1 [_ [N3 N4]]].
    split; [exact N1|]. split; [intros q Eq; injection Eq as <-; exact Hv|]. split; [exact N3|].
    intros a h b E. destruct (N4 a h b E) as [M1 [M2 M3]]. split; [exact M1|]. split; [|exact M3].
    intros q [Hq|[Hq Ea]]; [apply M2; left; exact Hq|]. unfold anchor_of in Ea. destruct (N.eqb_spec epoch 0) as [Z|Z]; [discriminate Ea|].
    injection Ea as <-. apply (Ha Z a h b E Hq).
Qed.

(** Against the importer: a stream whose headers are numbered consecutively from the start the metadata names is accepted by
    the importer exactly if the validator, given the same previous record, finds nothing and the rest of what the importer
    insists on holds. *)
Lemma valid_iff ver epoch prev x rest : (exists r, validate ver epoch prev (RMeta x :: rest) = Some r /\ r_valid r = true) <->
  ~ In RBad rest /\ forall i, ~ problem ver epoch prev (dec x) rest i.
Proof using Type.
  destruct (C62_report_exact ver epoch prev (RMeta x :: rest)) as [K0 K]. split.
  - intros [r [H V]]. destruct (K x rest r eq_refl H) as [_ W]. split; [|apply W; exact V].
    intros C. rewrite (proj2 K0) in H; [discriminate H|]. right. right. exact C.
  - intros [Hb Hn]. destruct (validate ver epoch prev (RMeta x :: rest)) as [r|] eqn:H.
    + exists r. split; auto. destruct (K x rest r eq_refl eq_refl) as [_ W]. apply W, Hn.
    + destruct (proj1 K0 eq_refl) as [C|[C|C]]; [destruct (C x rest eq_refl)|discriminate C|contradiction].
Qed.
Lemma ex_anchor epoch p : (if epoch =? 0 then ENone else EParent (er_chash p)) = ex_of (anchor_of epoch (Some p)).
Proof using Type. clear bd hd dec idof per_auth. unfold anchor_of. destruct (epoch =? 0); reflexivity. Qed.
Theorem C62_agrees_with_import ver epoch p final x rest :
  (exists l, stream_import bd hd dec idof per_auth ver epoch p final (RMeta x :: rest) = IOk (dec x) l) /\ numbered (m_start (dec x)) rest <->
  (exists r, validate ver epoch (Some p) (RMeta x :: rest) = Some r /\ r_valid r = true) /\
  importable idof per_auth ver (dec x) final rest.
Proof using Type.
  rewrite valid_iff, (no_problem bd hd dec). unfold stream_import. rewrite ex_anchor. split.
  - intros [[l H] Num]. destruct (verify_epoch_meta epoch p (dec x)) eqn:V; [|discriminate H].
    destruct (verify_fields _ _ _ V) as [Me _].
    assert (Main : plain rest /\ clean bd hd ver (m_start (dec x)) (anchor_of epoch (Some p)) rest /\ importable idof per_auth ver (dec x) final rest).
    { destruct (N.eqb_spec ver 0) as [E|E]; [subst ver|].
      - pose proof (backward0 bd hd idof per_auth _ _ _ _ _ _ [] _ _ Num (eq_sym (N.add_0_r (m_start (dec x)))) H) as L.
        destruct (layout0_clean bd hd dec idof _ _ _ _ _ L) as [A [B _]]. split; [exact A|]. split; [exact B|]. eapply layout0_importable; eauto.
      - destruct (backward1 bd hd idof per_auth _ (dec x) _ E _ _ _ _ [] _ _ Num (eq_sym (N.add_0_r (m_start (dec x)))) H) as [L _].
        destruct (layout1_clean bd hd dec idof _ _ _ _ _ E L) as [A [_ [B _]]]. split; [exact A|]. split; [exact B|]. eapply layout1_importable; eauto. }
    destruct Main as [[A1 A2] [B C]]. split; [|exact C]. split; [exact A2|]. split; [exact Me|]. split; [intros q Eq; injection Eq as <-; exact V|]. auto.
  - intros [[Hb [Me [V [Hm C]]]] I]. rewrite (V p eq_refl).
    assert (Pl : plain rest) by (split; auto).
    assert (Num : numbered (m_start (dec x)) rest) by (intros a h b E; apply (C a h b E)). split; [|exact Num].
    destruct (N.eqb_spec ver 0) as [E|E]; [subst ver|].
    + destruct (importable_Q0 bd hd idof per_auth _ _ _ I Pl) as [Q1 Q2].
      assert (L : layout0 bd hd (Q idof per_auth (dec x) final) (T per_auth (dec x)) (anchor_of epoch (Some p)) (m_start (dec x)) rest)
        by (apply (clean_layout0 bd hd dec idof _ _ (S (length rest))); auto).
      destruct (forward0 bd hd idof per_auth _ _ _ _ _ L [] (S (length rest))) as [os [Z _]]; [lia|simpl; lia|]. exists os. exact Z.
    + assert (L : layout1 bd hd (Q idof per_auth (dec x) final) (anchor_of epoch (Some p)) (m_start (dec x)) rest).
      { apply (clean_layout1 bd hd dec idof ver _ E (S (length rest))); auto.
        - intros b t Et. apply (i_first _ _ _ _ _ _ I E b t Et).
        - apply (importable_Q1 idof per_auth ver _ _ _ I). }
      destruct (forward1 bd hd idof per_auth ver _ _ _ _ _ E L [] (S (length rest))) as [os [Z _]]; [lia|simpl; lia|]. exists os. exact Z.
Qed.
(** What is imported then are the headers of the file, in file order. *)
Theorem C62_import_in_file_order ver epoch p final x rest l :
  stream_import bd hd dec idof per_auth ver epoch p final (RMeta x :: rest) = IOk (dec x) l -> numbered (m_start (dec x)) rest ->
  filter is_header rest = map (fun o => RHeader (header_of o)) l.
Proof using Type.
  intros H Num. unfold stream_import in H. rewrite ex_anchor in H. destruct (verify_epoch_meta epoch p (dec x)) eqn:V; [|discriminate H].
  assert (E0 : filter is_header rest = map RHeader (headers rest)).
  { clear. induction rest as [|[y|h|b|] t IH]; simpl; auto. rewrite IH. reflexivity. }
  assert (E1 : map header_of l = headers rest).
  { destruct (N.eqb_spec ver 0) as [E|E]; [subst ver|].
    - pose proof (backward0 bd hd idof per_auth _ _ _ _ _ _ [] _ _ Num (eq_sym (N.add_0_r (m_start (dec x)))) H) as L.
      destruct (forward0 bd hd idof per_auth _ _ _ _ _ L [] (S (length rest))) as [os [Z1 Z2]]; [lia|simpl; lia|].
      rewrite Z1 in H. injection H as <-. exact Z2.
    - destruct (backward1 bd hd idof per_auth _ (dec x) _ E _ _ _ _ [] _ _ Num (eq_sym (N.add_0_r (m_start (dec x)))) H) as [L _].
      destruct (forward1 bd hd idof per_auth ver _ _ _ _ _ E L [] (S (length rest))) as [os [Z1 Z2]]; [lia|simpl; lia|].
      rewrite Z1 in H. injection H as <-. exact Z2. }
  rewrite E0, <- E1, map_map. reflexivity.
Qed.

(** A pack as a node writes it (the metadata, then output after output, linked and numbered) is valid, with or without the
    previous record. *)
Theorem C62_written_pack_valid ver epoch prev x addr os parent :
  ver <> 0 -> m_epoch (dec x) = epoch ->
  (forall p, prev = Some p -> verify_epoch_meta epoch p (dec x) = true /\ (epoch <> 0 -> er_chash p = parent)) ->
  linked hd parent (m_start (dec x) - 1) (map header_of os) -> 1 <= m_start (dec x) ->
  Forall (fun o => output_for bd addr (out_sub o) (out_parent o) (out_num o) o /\ one_batch_per_digest bd o) os ->
  exists r, validate ver epoch prev (RMeta x :: concat (map (write_output bd) os)) = Some r /\ r_valid r = true /\
    r_headers r = N.of_nat (length os).
Proof using Type.
  clear idof per_auth. intros Hv Me Hp L Hs Fo. set (rest := concat (map (write_output bd) os)).
  assert (Lay : forall e n, (forall q, e = Some q -> q = parent) -> m_start (dec x) - 1 + 1 = n ->
     layout1 bd hd (fun _ _ => True) e n rest /\ filter is_header rest = map (fun o => RHeader (header_of o)) os).
  { subst rest. clear Me Hp Hs. revert parent L Fo. generalize (m_start (dec x) - 1) as k.
    induction os as [|o t IH]; intros k parent L Fo e n He Hn; cbn [map concat]; [split; [constructor|reflexivity]|].
    inversion Fo as [|? ? [O1 O2] Fo']; subst. destruct L as [L1 [L2 L3]].
    destruct (IH (k + 1) (digest_of hd (header_of o)) L3 Fo' (Some (digest_of hd (header_of o))) (k + 1 + 1)) as [IH1 IH2]; auto.
    { intros q Eq. injection Eq as <-. reflexivity. }
    pose proof (write_read bd addr hd (length (batch_set (out_sub o))) ENone o (concat (map (write_output bd) t)) O1 O2 (le_n _) eq_refl) as R.
    destruct (iter1_inv bd hd _ _ _ _ _ _ R) as [bs [E [_ [M _]]]]. rewrite app_comm_cons in E. apply app_inv_tail in E. rewrite E. cbn [app]. split.
    - constructor; auto.
      + intros q Eq. rewrite (He q Eq). exact L1.
      + destruct t as [|o' t']; intros b l C; cbn in C; discriminate C.
    - cbn [filter is_header]. rewrite filter_app. rewrite IH2.
      assert (Z : filter is_header (map RBatch bs) = []) by (clear; induction bs as [|b bs IH]; simpl; auto). rewrite Z. reflexivity. }
  assert (V : exists r, validate ver epoch prev (RMeta x :: rest) = Some r /\ r_valid r = true).
  { apply valid_iff. destruct (Lay (anchor_of epoch prev) (m_start (dec x) - 1 + 1)) as [L1 _]; [|reflexivity|].
    - intros q Eq. unfold anchor_of in Eq. destruct (N.eqb_spec epoch 0) as [Z|Z]; [discriminate Eq|]. destruct prev as [p|]; [|discriminate Eq].
      injection Eq as <-. apply (Hp p eq_refl). exact Z.
    - replace (m_start (dec x) - 1 + 1) with (m_start (dec x)) in L1 by lia.
      destruct (layout1_clean bd hd dec (fun k => k) ver _ _ _ _ Hv L1) as [[P1 P2] [_ [C _]]]. split; [exact P2|].
      apply (no_problem bd hd dec). split; [exact Me|]. split; [intros p Ep; apply (Hp p Ep)|]. split; [exact P1|exact C]. }
  destruct V as [r [V1 V2]]. exists r. split; [exact V1|]. split; [exact V2|].
  destruct (C62_report_counts _ _ _ _ _ _ V1) as [_ [_ [_ [C _]]]]. rewrite C.
  destruct (Lay (Some parent) (m_start (dec x) - 1 + 1)) as [_ E]; [intros q Eq; injection Eq as <-; reflexivity|reflexivity|].
  rewrite E, map_length. reflexivity.
Qed.
End T.

(* ---------- a concrete epoch: the one of C43 ---------- *)
Definition zval := validate zbd zhd zdec.
Definition zimp ver recs := stream_import zbd zhd zdec zid 10 ver 1 zprev 4 recs.
Theorem C62_example :
  (exists r, zval 1 1 (Some zprev) (zstream 0) = Some r /\ r_valid r = true /\ r_first r = Some 3 /\ r_last r = Some 4 /\ r_batches r = 2) /\
  (exists l, zimp 1 (zstream 0) = IOk (zdec 0) l) /\
  (* the first output missing, a batch in the other group, a batch nowhere, a foreign batch: all found *)
  (exists r, zval 1 1 (Some zprev) (RMeta 0 :: write_output zbd o4) = Some r /\ r_valid r = false /\
     In (NonSequential 3 4) (r_issues r) /\ length (r_issues r) = 2%nat) /\
  (exists r, zval 1 1 (Some zprev) [RMeta 0; RHeader (header_of o3); RHeader (header_of o4); RBatch 5; RBatch 9] = Some r /\
     r_issues r = [MissingBatch 3 (zbd 5) Misordered; ExtraBatch 4 (zbd 5)]) /\
  (exists r, zval 1 1 (Some zprev) [RMeta 0; RHeader (header_of o3); RHeader (header_of o4); RBatch 9] = Some r /\
     r_issues r = [MissingBatch 3 (zbd 5) Absent]) /\
  (exists r, zval 0 1 (Some zprev) [RMeta 0; RBatch 5; RHeader (header_of o3); RBatch 9; RHeader (header_of o4)] = Some r /\ r_issues r = []) /\
  importable zid 10 1 (zdec 0) 4 (write_output zbd o3 ++ write_output zbd o4) /\ numbered 3 (write_output zbd o3 ++ write_output zbd o4).
Proof.
  split; [eexists; split; [vm_compute; reflexivity|auto]|]. split; [eexists; vm_compute; reflexivity|].
  split; [eexists; split; [vm_compute; reflexivity|]; split; [reflexivity|]; split; [simpl; auto|reflexivity]|].
  split; [eexists; split; [vm_compute; reflexivity|reflexivity]|]. split; [eexists; split; [vm_compute; reflexivity|reflexivity]|].
  split; [eexists; split; [vm_compute; reflexivity|reflexivity]|].
  assert (E : exists r, validate zbd zhd zdec 1 1 (Some zprev) (RMeta 0 :: write_output zbd o3 ++ write_output zbd o4) = Some r /\ r_valid r = true)
    by (eexists; split; [vm_compute; reflexivity|reflexivity]).
  assert (Num : numbered 3 (write_output zbd o3 ++ write_output zbd o4)).
  { apply valid_iff in E. destruct E as [_ E]. apply (no_problem zbd zhd zdec) in E. destruct E as [_ [_ [_ C]]].
    intros a h b Eq. apply (C a h b Eq). }
  split; [|exact Num]. apply (C62_agrees_with_import zbd zhd zdec zid 10 1 1 zprev 4 0). split; [|exact Num]. eexists. vm_compute. reflexivity.
Qed.

(** "Valid: the pack would import cleanly" does not hold: packs the validator has nothing to say about and the importer
    refuses.  Batches before the first header, or without any header, under version 1; a header of another epoch; an
    author outside the committee; a sub-dag without a header, on which the importer panics; and, as the command line tool
    calls it (no previous record), an epoch that does not continue the chain. *)
Definition xsub e a : subdag := {| sd_hdrs := [{| oh_author := a; oh_payload := [zbd 5] |}]; sd_epoch := e; sd_ts := 1; sd_id := 1 |}.
Definition xhdr e a p : chdr := {| ch_parent := p; ch_sub := xsub e a; ch_num := 3 |}.
Definition valid_refused prev recs res : Prop :=
  (exists r, zval 1 1 prev recs = Some r /\ r_valid r = true) /\ zimp 1 recs = res.
Theorem C62_valid_imports_refuted :
  valid_refused (Some zprev) [RMeta 0; RBatch 5; RHeader (header_of o3)] IErr /\
  valid_refused (Some zprev) [RMeta 0; RBatch 5] IErr /\
  valid_refused (Some zprev) [RMeta 0; RHeader (xhdr 2 1 (zdig o2)); RBatch 5] IErr /\
  valid_refused (Some zprev) [RMeta 0; RHeader (xhdr 1 7 (zdig o2)); RBatch 5] IErr /\
  valid_refused (Some zprev) [RMeta 0; RHeader leaderless] IPanic /\
  valid_refused None [RMeta 0; RHeader (xhdr 1 1 (zdig o4)); RBatch 5] IErr.
Proof. repeat split; try (vm_compute; reflexivity); eexists; (split; [vm_compute; reflexivity|reflexivity]). Qed.

(** "Invalid: the pack would be rejected" does not hold either: the importer accepts, and drops, a header that follows the
    last one and repeats a number already stored; and in epoch 0 the pre-genesis header in front. *)
Definition again : chdr := {| ch_parent := zdig o4; ch_sub := xsub 1 1; ch_num := 3 |}.
Theorem C62_invalid_rejected_refuted :
  (exists r, zval 1 1 (Some zprev) (zstream 0 ++ [RHeader again; RBatch 5]) = Some r /\ r_valid r = false) /\
  zimp 1 (zstream 0 ++ [RHeader again; RBatch 5]) = IOk (zdec 0) [o3; o4] /\
  zimport None 1 zrec zprev (zstream 0 ++ [RHeader again; RBatch 5]) = CInstalled (zdec 0) [o3; o4] /\
  (exists r, validate zbd zhd zdec0 1 0 (Some zprev0) (RMeta 0 :: write_output zbd h0out ++ write_output zbd e1 ++ write_output zbd e2) = Some r /\
     r_valid r = false) /\
  exists l, stream_import zbd zhd zdec0 zid 10 1 0 zprev0 2 (RMeta 0 :: write_output zbd h0out ++ write_output zbd e1 ++ write_output zbd e2) = IOk (zdec0 0) l.
Proof.
  split; [eexists; split; [vm_compute; reflexivity|reflexivity]|]. split; [vm_compute; reflexivity|]. split; [vm_compute; reflexivity|].
  split; [eexists; split; [vm_compute; reflexivity|reflexivity]|]. eexists. vm_compute. reflexivity.
Qed.
