(* C32: epoch records and their certificates. *)
From Verif Require Import Util EpochModel EpochSpec EpochProofs EpochDbModel.


(* A certificate verifies only for the record it names, signed by more than two thirds of the record's committee, each
   member counted once. *)
Theorem C32_verified_means_super_quorum E signed r c :
  eenv_sound E signed -> NoDup (er_com r) -> verify_with_cert E r c = true ->
  ec_hash c = ee_dig E r /\ super_signed E signed r.
Proof. intros H Hn Hv. destruct (verify_super _ _ _ _ H Hn Hv). auto. Qed.

(* Two certified records with the same committee share an honest signer when less than a third is faulty. *)
Theorem C32_two_records_share_honest_signer E signed r r' c c' faulty :
  eenv_sound E signed -> NoDup (er_com r) -> Permutation (er_com r) (er_com r') ->
  verify_with_cert E r c = true -> verify_with_cert E r' c' = true ->
  3 * length (interN (er_com r) faulty) < length (er_com r) ->
  exists k, In k (er_com r) /\ ~ In k faulty /\ signed k (ee_dig E r) /\ signed k (ee_dig E r').
Proof.
  intros H Hn Hp V1 V2 Hf. assert (Hn' : NoDup (er_com r')) by (eapply Permutation_NoDup; eauto).
  destruct (verify_super _ _ _ _ H Hn V1) as [(ks & A1 & A2 & A3 & A4) _].
  destruct (verify_super _ _ _ _ H Hn' V2) as [(ks' & B1 & B2 & B3 & B4) _].
  assert (B2' : incl ks' (er_com r)). { intros x Hx. eapply Permutation_in; [apply Permutation_sym; eauto|auto]. }
  rewrite <- (Permutation_length Hp) in B3.
  pose proof (inter_lower ks ks' (er_com r) A1 B1 A2 B2') as Hi.
  destruct (existsb (fun k => negb (memN k faulty)) (interN ks ks')) eqn:Ex.
  - apply existsb_exists in Ex as (k & H1 & H2). apply interN_In in H1 as [H3 H4]. exists k. split; auto.
    split; [apply memN_nIn; destruct (memN k faulty); auto; discriminate|]. auto.
  - exfalso. assert (Hin : incl (interN ks ks') (interN (er_com r) faulty)).
    { intros k Hk. apply interN_In. pose proof Hk as Hk0. apply interN_In in Hk as [H3 H4]. split; auto. apply memN_In.
      destruct (memN k faulty) eqn:Ek; auto.
      assert (existsb (fun k => negb (memN k faulty)) (interN ks ks') = true); [|congruence].
      apply existsb_exists. exists k. rewrite Ek. auto. }
    pose proof (NoDup_incl_length (NoDup_filter' _ _ A1) Hin) as Hl. unfold interN in *. lia.
Qed.

(* So if honest members sign one record per epoch, one epoch has one certified record per committee. *)
Theorem C32_one_certified_record E signed r r' c c' faulty :
  eenv_sound E signed -> NoDup (er_com r) -> Permutation (er_com r) (er_com r') ->
  verify_with_cert E r c = true -> verify_with_cert E r' c' = true ->
  3 * length (interN (er_com r) faulty) < length (er_com r) ->
  (forall k x y, ~ In k faulty -> signed k (ee_dig E x) -> signed k (ee_dig E y) -> er_epoch x = er_epoch y -> x = y) ->
  er_epoch r = er_epoch r' -> r = r'.
Proof.
  intros H Hn Hp V1 V2 Hf Hu He.
  destruct (C32_two_records_share_honest_signer _ _ _ _ _ _ _ H Hn Hp V1 V2 Hf) as (k & _ & K2 & K3 & K4). eauto.
Qed.

(* A record accepted against a trusted committee is for the requested epoch, chains to the trusted parent, has a committee
   of distinct members of the trusted one (at least two thirds of it), and an honest member of the trusted committee signed
   exactly it. *)
Theorem C32_accepted_record E signed e r c parent com faulty :
  eenv_sound E signed -> validate_against_anchor E e r c parent com = EValid ->
  NoDup com -> 3 * length (interN com faulty) < length com ->
  er_epoch r = e /\ er_parent r = parent /\ NoDup (er_com r) /\ incl (er_com r) com /\ 2 * length com <= 3 * length (er_com r) /\
  super_signed E signed r /\ exists k, In k com /\ ~ In k faulty /\ signed k (ee_dig E r).
Proof.
  intros H Hv Hn Hf. destruct (accepted_honest _ _ _ _ _ _ _ _ H Hv Hn Hf) as (A1 & A2 & _ & A4).
  unfold validate_against_anchor in Hv.
  destruct ((er_epoch r =? e) && N.eqb parent (er_parent r) && committee_compatible r com && verify_with_cert E r c) eqn:Ea; [|discriminate].
  rewrite !andb_true_iff in Ea. destruct Ea as [[_ A3] A5]. apply compatible_spec in A3 as (B1 & B2 & B3 & _).
  destruct (verify_super _ _ _ _ H B1 A5) as [A6 _]. repeat (split; [auto; lia|]). auto.
Qed.

(* ---------- syncing from untrusted peers ---------- *)
(* anything that can happen to the records: any peer answers anything, the node saves the record it executed, its votes
   give a certificate, the genesis stand-in is set, the process restarts on what is left on disk *)
Inductive sync_ev :=
| SDownload (e : nat) (r : erec) (c : ecert) (w1 w2 : bool)
| SOwn (r : erec) (w : bool)
| SOwnCert (r : erec) (c : ecert) (w : bool)
| SDummy (r : erec)
| SRestart (kept : nat) (certs : list (N * ecert)).
Definition sync_step (E : eenv) (s : edb) (ev : sync_ev) : edb :=
  match ev with
  | SDownload e r c w1 w2 => ingest E s e r c w1 w2
  | SOwn r w => snd (db_save_record w s r)
  | SOwnCert r c w => snd (db_save_cert w s (ee_dig E r) c)
  | SDummy r => snd (db_save_dummy s r)
  | SRestart n certs => seed_mark E (mk_edb (firstn n (db_recs s)) certs None 0)
  end.
Fixpoint sync_run (E : eenv) (s : edb) (evs : list sync_ev) : edb :=
  match evs with [] => s | e :: r => sync_run E (sync_step E s e) r end.
(* the node's own steps are honest; downloads are not constrained *)
Definition own_honest (E : eenv) (genesis : list N) (truth : nat -> erec) (s : edb) (ev : sync_ev) : Prop :=
  match ev with
  | SDownload _ _ _ _ _ => True
  | SOwn r _ => r = truth (er_epoch r)
  | SOwnCert r c _ => verify_with_cert E r c = true
  | SDummy r => uniq (er_com r) = genesis
  | SRestart _ certs => incl certs (db_certs s)
  end.
Fixpoint all_own_honest (E : eenv) (genesis : list N) (truth : nat -> erec) (s : edb) (evs : list sync_ev) : Prop :=
  match evs with [] => True | e :: r => own_honest E genesis truth s e /\ all_own_honest E genesis truth (sync_step E s e) r end.

Lemma first_missing_db E s tip : db_recs (snd (first_missing E s tip)) = db_recs s /\ db_certs (snd (first_missing E s tip)) = db_certs s
  /\ db_dummy (snd (first_missing E s tip)) = db_dummy s.
Proof. unfold first_missing. simpl. auto. Qed.

Lemma nth_error_firstn' {A} (l : list A) : forall n i x, nth_error (firstn n l) i = Some x -> nth_error l i = Some x.
Proof. induction l as [|y l IH]; intros [|n] [|i] x; simpl; try discriminate; auto. apply IH. Qed.

(* Whatever peers answer, a stored record is the record of the true chain. *)
Theorem C32_sync_only_truth E signed faulty genesis truth evs e r :
  eenv_sound E signed -> true_chain E signed faulty genesis truth ->
  all_own_honest E genesis truth edb_new evs ->
  nth_error (db_recs (sync_run E edb_new evs)) e = Some r -> r = truth e.
Proof.
  intros Hs Ht. assert (H : forall s, db_true E genesis truth s -> all_own_honest E genesis truth s evs ->
    db_true E genesis truth (sync_run E s evs)).
  { induction evs as [|ev evs IH]; intros s H Ho; cbn [sync_run]; [auto|]. destruct Ho as [Ho Hr]. apply IH; auto.
    destruct ev as [e' r' c' w1 w2|r' w|r' c' w|r'|n certs]; cbn [sync_step own_honest] in *.
    - eapply ingest_true; eauto.
    - apply save_record_true; auto.
    - eapply save_cert_true; eauto.
    - unfold db_save_dummy. destruct (er_epoch r' =? 0); [|auto]. destruct H as [H1 H2 H3]. constructor; cbn [snd db_recs db_certs db_dummy]; auto.
      intros x Hx. injection Hx as <-. auto.
    - unfold seed_mark. destruct H as [H1 H2 H3]. constructor; cbn [first_missing snd db_recs db_certs db_dummy]; [| |discriminate].
      + intros i x Hx. apply nth_error_firstn' in Hx. auto.
      + intros d c Hc. auto. }
  intros Ho Hn. exact (dt_recs _ _ _ _ (H _ (db_true_new _ _ _) Ho) _ _ Hn).
Qed.

(* And the next true record, offered with a certificate that verifies and whose committee is compatible, is stored and
   certified. *)
Theorem C32_sync_progress E s e r c p :
  e <> 0 -> length (db_recs s) = e -> nth_error (db_recs s) (e - 1) = Some p ->
  er_epoch r = e -> er_parent r = ee_dig E p -> committee_compatible r (uniq (er_next p)) = true -> verify_with_cert E r c = true ->
  cget (db_certs s) (ee_dig E r) = None ->
  let s' := ingest E s e r c true true in
  nth_error (db_recs s') e = Some r /\ certified_record E s' e = inl r.
Proof.
  intros He Hl Hp Hr Hpa Hc Hv Hg s'.
  assert (Hval : validate_downloaded E s e r c = EValid).
  { unfold validate_downloaded. destruct (e =? 0) eqn:E0; [apply Nat.eqb_eq in E0; congruence|].
    rewrite record_by_epoch_nth by (intros Hx; rewrite Hx in Hl; simpl in Hl; congruence). rewrite Hp.
    unfold validate_against_anchor. rewrite Hr, Nat.eqb_refl, Hpa, N.eqb_refl, Hc, Hv. auto. }
  assert (Hs' : s' = mk_edb (db_recs s ++ [r]) ((ee_dig E r, c) :: db_certs s) (db_dummy s) (db_mark s)).
  { unfold s', ingest. rewrite Hval. unfold db_save, db_save_record. rewrite Hr, Hl, Nat.ltb_irrefl, Nat.eqb_refl. cbn [negb].
    unfold db_save_cert. cbn [db_certs]. rewrite Hg. auto. }
  assert (Hn : nth_error (db_recs s') e = Some r).
  { rewrite Hs'. cbn [db_recs]. rewrite nth_error_app2 by lia. rewrite Hl, Nat.sub_diag. auto. }
  split; auto. unfold certified_record. rewrite record_by_epoch_nth.
  - rewrite Hn. rewrite Hs'. cbn [db_certs cget]. rewrite N.eqb_refl, Hv. auto.
  - rewrite Hs'. cbn [db_recs]. intros Hx. apply app_eq_nil in Hx as [_ Hx]. discriminate.
Qed.

(* What an honest node builds at the end of an epoch passes the checks other nodes apply to it. *)
Theorem C32_producer_matches_verifier E epoch com next p state cnum chash r c :
  epoch <> 0 -> build_epoch_record E epoch com next (Some p) state cnum chash = Some r -> verify_with_cert E r c = true ->
  er_com r = com /\ er_next r = next /\ er_cnum r = cnum /\ er_chash r = chash /\
  validate_against_anchor E epoch r c (ee_dig E p) (uniq (er_next p)) = EValid.
Proof.
  intros He. unfold build_epoch_record. destruct (epoch =? 0) eqn:E0; [apply Nat.eqb_eq in E0; congruence|].
  cbv zeta. destruct (committee_compatible _ _) eqn:Ec; [|discriminate]. intros H Hv. injection H as <-.
  cbn [er_com er_next er_cnum er_chash]. repeat (split; [auto|]). unfold validate_against_anchor. rewrite Ec, Hv.
  cbn [er_epoch er_parent]. rewrite Nat.eqb_refl, N.eqb_refl. auto.
Qed.

(* ---------- collecting votes ---------- *)
(* A certificate saved by the vote collector verifies, whatever arrived. *)
Theorem C32_collector_saves_only_verified E r s c : vfinish E r s = Some c -> verify_with_cert E r c = true.
Proof.
  unfold vfinish. destruct (vs_reached s); [|discriminate]. destruct (ee_agg E (vs_sigs s)); [|discriminate]. cbv zeta.
  destruct (verify_with_cert E r _) eqn:Ev; [|discriminate]. intros H; injection H as <-. auto.
Qed.

(* Every quorum becomes a certificate: once the collector has counted a super quorum, the aggregate it builds verifies (one
   signature per bit), in whatever order votes, repeated votes and timeouts came. *)
Theorem C32_quorum_becomes_certificate E sigok r me mysig evs :
  agg_complete E sigok -> (memN me (er_com r) = true -> sigok (ee_dig E r) me mysig) ->
  (forall v, In (VVote v) evs -> v_hash v = ee_dig E r -> sigok (v_hash v) (v_key v) (v_sig v)) ->
  vs_reached (fst (vloop E r (vstart r me mysig) evs)) = true ->
  exists c, vfinish E r (fst (vloop E r (vstart r me mysig) evs)) = Some c /\ verify_with_cert E r c = true.
Proof. intros Ha Hm Hv Hr. apply (vfinish_ok E sigok); auto. apply vloop_cinv; auto. apply vstart_cinv; auto. Qed.

(* Enough honest members are enough: if more than two thirds of a committee of at least two vote for the record, their
   votes arrive before the channel closes and within 25 timeouts, and the others do anything, a verifying certificate is
   saved. *)
Theorem C32_honest_votes_certify E sigok r H me mysig evs :
  agg_complete E sigok -> NoDup (er_com r) -> 2 <= length (er_com r) ->
  NoDup H -> incl H (er_com r) -> super_quorum r <= length H ->
  (memN me (er_com r) = true -> sigok (ee_dig E r) me mysig) ->
  (forall v, In (VVote v) evs -> v_hash v = ee_dig E r -> sigok (v_hash v) (v_key v) (v_sig v)) ->
  (forall v, In (VVote v) evs -> In (v_key v) H -> v_epoch v = er_epoch r -> v_hash v = ee_dig E r) ->
  (forall h, In h H -> h <> me -> exists v, In (VVote v) evs /\ v_key v = h /\ v_epoch v = er_epoch r /\ v_hash v = ee_dig E r) ->
  ~ In VClosed evs -> tmos evs <= 25 ->
  exists c, vfinish E r (fst (vloop E r (vstart r me mysig) evs)) = Some c /\ verify_with_cert E r c = true.
Proof.
  intros Ha Hc H2 Hn Hi Hq Hm Hv Hh Hin Hcl Ht.
  apply (C32_quorum_becomes_certificate E sigok); auto.
  apply (vloop_reaches E r H); auto. apply vstart_jinv; auto.
Qed.

(* ---------- a concrete environment ---------- *)
Definition pr (a b : N) : N := (2 ^ a * (2 * b + 1))%N.
Lemma pr_inj a b c d : pr a b = pr c d -> a = c /\ b = d.
Proof.
  assert (H : forall a b c d, (a <= c)%N -> pr a b = pr c d -> a = c /\ b = d).
  { clear. intros a b c d Hle H. unfold pr in H.
    replace c with (a + (c - a))%N in H by lia. rewrite N.pow_add_r in H. rewrite <- N.mul_assoc in H.
    apply N.mul_cancel_l in H; [|apply N.pow_nonzero; lia].
    destruct (N.eq_dec c a) as [->|Hne].
    - rewrite N.sub_diag in H. change (2 ^ 0)%N with 1%N in H. split; auto. lia.
    - exfalso. replace (c - a)%N with (N.succ (c - a - 1)) in H by lia. rewrite N.pow_succ_r' in H.
      rewrite <- N.mul_assoc in H. lia. }
  intros He. destruct (N.le_ge_cases a c) as [Hl|Hl]; [apply H; auto|]. symmetry in He. destruct (H _ _ _ _ Hl He); auto.
Qed.
Fixpoint encl (l : list N) (t : N) : N := match l with [] => pr 0 t | x :: r => pr (N.succ x) (encl r t) end.
Lemma encl_inj l : forall l' t t', encl l t = encl l' t' -> l = l' /\ t = t'.
Proof.
  induction l as [|x l IH]; intros [|y l'] t t'; cbn [encl]; intros H; apply pr_inj in H as [H1 H2]; try lia; auto.
  apply IH in H2 as [-> ->]. apply N.succ_inj in H1. subst. auto.
Qed.
Definition tdig (r : erec) : N :=
  encl (er_com r) (encl (er_next r) (pr (N.of_nat (er_epoch r)) (pr (er_state r) (pr (er_cnum r) (pr (er_chash r) (er_parent r)))))).
Lemma tdig_inj r r' : tdig r = tdig r' -> r = r'.
Proof.
  unfold tdig. intros H. apply encl_inj in H as [H1 H]. apply encl_inj in H as [H2 H].
  apply pr_inj in H as [H3 H]. apply pr_inj in H as [H4 H]. apply pr_inj in H as [H5 H]. apply pr_inj in H as [H6 H7].
  apply Nat2N.inj in H3. destruct r, r'; cbn in *; subst; auto.
Qed.
(* who signed what is a table *)
Definition tenv (sg : N -> N -> bool) : eenv := mk_eenv tdig (fun l => match l with [] => None | _ => Some 0%N end) (fun d ks _ => forallb (fun k => sg k d) ks).
Lemma tenv_sound sg : eenv_sound (tenv sg) (fun k d => sg k d = true).
Proof.
  constructor; [apply tdig_inj|]. intros d ks a H k Hk. cbn [tenv ee_ver] in H. rewrite forallb_forall in H. auto.
Qed.
Lemma tenv_agg sg : agg_complete (tenv sg) (fun d k s => sg k d = true).
Proof.
  intros d l Hne Hok. cbn [tenv ee_agg ee_ver]. destruct l as [|p l]; [congruence|]. exists 0%N. split; [auto|].
  intros ks Hp. apply forallb_forall. intros k Hk. apply (Permutation_in _ Hp) in Hk. apply in_map_iff in Hk as ((k' & s') & <- & Hin).
  apply (Hok _ _ Hin).
Qed.

(* a chain whose committee is always four members, of which member 4 is faulty and signs anything *)
Fixpoint chain4 (e : nat) : erec :=
  match e with
  | 0 => mk_erec 0 [1; 2; 3; 4]%N [1; 2; 3; 4]%N DEFAULT_DIGEST 0 0 0
  | S e' => mk_erec e [1; 2; 3; 4]%N [1; 2; 3; 4]%N (tdig (chain4 e')) 0 (N.of_nat e) 0
  end.
Definition sg4 (k d : N) : bool := N.eqb k 4 || existsb (fun e => N.eqb d (tdig (chain4 e))) (seq 0 3).
Definition truth4 (e : nat) : erec := chain4 e.
Lemma chain4_epoch e : er_epoch (chain4 e) = e.
Proof. destruct e; auto. Qed.
Lemma C32_example_chain : true_chain (tenv sg4) (fun k d => sg4 k d = true) [4%N] [1; 2; 3; 4]%N truth4.
Proof.
  constructor.
  - apply chain4_epoch.
  - intros k r Hk Hs. unfold sg4 in Hs. destruct (N.eqb k 4) eqn:Ek; [apply N.eqb_eq in Ek; subst; exfalso; apply Hk; simpl; auto|].
    cbn [orb] in Hs. apply existsb_exists in Hs as (e & _ & He). apply N.eqb_eq in He. cbn [tenv ee_dig] in He.
    apply tdig_inj in He. subst r. unfold truth4. rewrite chain4_epoch. auto.
  - split; [repeat (constructor; [simpl; intuition discriminate|]); constructor|vm_compute; lia].
  - intros e. assert (Hn : er_next (truth4 e) = [1; 2; 3; 4]%N) by (destruct e; auto). rewrite Hn.
    split; [repeat (constructor; [simpl; intuition discriminate|]); constructor|vm_compute; lia].
Qed.
(* syncing it from a peer: forged records and certificates without a quorum are refused, the true ones are stored *)
Definition E4 := tenv sg4.
Definition forged : erec := mk_erec 1 [1; 2; 3; 4]%N [4]%N (tdig (chain4 0)) 0 1 0.
Definition cert4 (r : erec) (bits : list nat) : ecert := mk_ecert (tdig r) 0 bits.
Definition sync4 : list sync_ev :=
  [SDummy (mk_erec 0 [1; 2; 3; 4]%N [1; 2; 3; 4]%N 0 9 0 0);
   SDownload 0 (chain4 0) (cert4 (chain4 0) [0; 1]) true true;
   SDownload 0 (chain4 0) (cert4 (chain4 0) [0; 1; 2]) true true;
   SDownload 1 forged (cert4 forged [3]) true true;
   SDownload 1 forged (cert4 forged [0; 1; 3]) true true;
   SDownload 1 (chain4 0) (cert4 (chain4 0) [0; 1; 3]) true true;
   SDownload 1 (chain4 1) (cert4 (chain4 1) [0; 1; 3]) true true].
Example C32_example_sync :
  all_own_honest E4 [1; 2; 3; 4]%N truth4 edb_new sync4 /\ db_recs (sync_run E4 edb_new sync4) = [chain4 0; chain4 1].
Proof. split; [|vm_compute; auto]. cbn [all_own_honest sync4 own_honest]. repeat split; auto. Qed.
(* votes: member 1 collects from 2 and 3, the faulty 4 votes for something else, a vote is repeated, one timeout *)
Example C32_example_votes :
  exists c, vfinish E4 (chain4 1) (fst (vloop E4 (chain4 1) (vstart (chain4 1) 1 7)
    [VVote (mk_vote 1 (tdig (chain4 1)) 2 7); VVote (mk_vote 1 99 4 7); VVote (mk_vote 1 (tdig (chain4 1)) 2 7); VTimeout;
     VVote (mk_vote 1 (tdig (chain4 1)) 3 7)])) = Some c /\ ec_bits c = [0; 1; 2].
Proof. eexists. split; vm_compute; eauto. Qed.

(* ---------- limits ---------- *)
(* Against one trusted committee of ten, two records with different, both acceptable, shrunken committees can be certified
   by disjoint quorums: nobody signs twice. *)
Definition com10 : list N := [0; 1; 2; 3; 4; 5; 6; 7; 8; 9]%N.
Definition shrunk_a : erec := mk_erec 1 [0; 1; 2; 3; 4; 5; 6]%N com10 5 0 1 0.
Definition shrunk_b : erec := mk_erec 1 [3; 4; 5; 6; 7; 8; 9]%N com10 5 0 1 1.
Definition sg10 (k d : N) : bool := (N.ltb k 5 && N.eqb d (tdig shrunk_a)) || (N.leb 5 k && N.eqb d (tdig shrunk_b)).
Theorem C32_different_committees_refuted :
  exists c c',
    validate_against_anchor (tenv sg10) 1 shrunk_a c 5%N com10 = EValid /\
    validate_against_anchor (tenv sg10) 1 shrunk_b c' 5%N com10 = EValid /\
    shrunk_a <> shrunk_b /\ forall k, ~ (sg10 k (tdig shrunk_a) = true /\ sg10 k (tdig shrunk_b) = true).
Proof.
  exists (cert4 shrunk_a [0; 1; 2; 3; 4]), (cert4 shrunk_b [2; 3; 4; 5; 6]).
  split; [vm_compute; auto|]. split; [vm_compute; auto|]. split; [intros H; discriminate H|].
  intros k [H1 H2]. unfold sg10 in *.
  assert (Hd : N.eqb (tdig shrunk_a) (tdig shrunk_b) = false) by (vm_compute; auto).
  assert (Hd' : N.eqb (tdig shrunk_b) (tdig shrunk_a) = false) by (vm_compute; auto).
  rewrite Hd in H1. rewrite Hd' in H2. rewrite !N.eqb_refl, !andb_true_r, !andb_false_r in *. cbn [orb] in *. rewrite orb_false_r in H1. lia.
Qed.

(* A committee of one never certifies its own record: its own vote does not count as reaching the quorum. *)
Theorem C32_one_member_refuted E r me mysig evs :
  er_com r = [me] -> vfinish E r (fst (vloop E r (vstart r me mysig) evs)) = None.
Proof.
  intros Hc. assert (H : forall s, vs_left s = [] -> vs_reached s = false -> vs_reached (fst (vloop E r s evs)) = false).
  { induction evs as [|e evs IH]; intros s Hl Hr; cbn [vloop]; [auto|].
    destruct e as [v| |]; cbn [vturn].
    - destruct (negb (v_epoch v =? er_epoch r)); [apply IH; auto|]. rewrite Hl. cbn [memN existsb]. rewrite !andb_false_r. apply IH; auto.
    - rewrite Hr. cbn [orb]. destruct (MAX_TIMEOUTS <? vs_tmo s); [auto|]. apply IH; auto.
    - auto. }
  unfold vfinish. rewrite H; auto.
  - unfold vstart. rewrite Hc. cbn [memN existsb]. rewrite N.eqb_refl. cbn [orb]. unfold put. cbn [last_index]. rewrite N.eqb_refl.
    cbn [has existsb remN filter]. rewrite N.eqb_refl. auto.
  - unfold vstart. rewrite Hc. cbn [memN existsb]. rewrite N.eqb_refl. cbn [orb]. unfold put. cbn [last_index]. rewrite N.eqb_refl. auto.
Qed.
