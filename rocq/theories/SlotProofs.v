(* Quorum arguments about verified certificates. *)
From Verif Require Import Util Types CommitteeModel CommitteeProofs CertModel CertProofs.
Local Open Scope N_scope.

Lemma quorum_keys_inter (keys A B F : list N) :
  NoDup keys -> keys <> [] -> sublist A keys -> sublist B keys ->
  quorum_threshold_n (N.of_nat (length keys)) <= N.of_nat (length A) ->
  quorum_threshold_n (N.of_nat (length keys)) <= N.of_nat (length B) ->
  N.of_nat (length F) <= (N.of_nat (length keys) - 1) / 3 ->
  exists k, In k A /\ In k B /\ ~ In k F.
Proof.
  intros Hn Hne HA HB QA QB HF.
  pose proof (inter_lower A B keys (sublist_NoDup _ _ HA Hn) (sublist_NoDup _ _ HB Hn)) as HI.
  assert (HI' : (length A + length B <= length keys + length (interN A B))%nat).
  { apply HI; intros x; apply sublist_In; auto. }
  destruct (longer_has_other (interN A B) F) as [x [Hx Hf]].
  - apply NoDup_filter. eapply sublist_NoDup; eauto.
  - unfold quorum_threshold_n in *. assert (length keys <> 0%nat) by (destruct keys; cbn; congruence). lia.
  - exists x. apply interN_In in Hx. tauto.
Qed.

(* a certificate accepted by `verify_cert` or (after `validate_received`) by `validate_and_verify` for this
   committee, outside genesis *)
Definition accepted_cert (averify : N -> N -> list N -> bool) (keys : list N) (ct : cert) : Prop :=
  exists sig, quorum_threshold_n (N.of_nat (length keys)) <= fst (signed_by ct keys) /\
              averify (c_digest ct) sig (snd (signed_by ct keys)) = true.

Lemma verify_cert_accepted averify keys ct ct' :
  verify_cert averify keys ct = Ok ct' -> accepted_cert averify keys ct' /\ c_header ct' = c_header ct.
Proof.
  intros H. pose proof H as H0. apply verify_cert_ok in H as (sig & H1 & H2 & H3 & H4). split; auto.
  exists sig. unfold verify_cert in H0. unfold validate_received in H0. rewrite H1 in H0.
  change (signed_by (set_state ct (Unverified sig)) keys) with (signed_by ct keys) in H0.
  destruct (signed_by ct keys) as [w pks] eqn:E. destruct (_ <=? w); [|discriminate].
  unfold verify_signature in H0. cbn in H0. destruct (averify _ sig pks); [|discriminate].
  inversion H0; subst ct'. unfold signed_by in *. cbn. rewrite E. cbn. auto.
Qed.

Lemma wf_keys_NoDup c : committee_wf c -> NoDup (bls_keys c).
Proof. intros H. apply bm_NoDup, wf_auths_sorted; auto. Qed.

Lemma wf_quorum_n c : committee_wf c -> cm_quorum c = quorum_threshold_n (N.of_nat (length (bls_keys c))).
Proof. intros H. rewrite (wf_quorum _ H). unfold quorum_threshold_n, cm_size, bls_keys, bm_keys. rewrite map_length. auto. Qed.

Lemma validate_received_accepted averify genesis c ct ct1 ct' :
  committee_wf c ->
  validate_received ct = Ok ct1 -> validate_and_verify averify genesis c ct1 = Ok ct' ->
  c_header ct' = c_header ct /\ c_epoch ct = cm_epoch c /\
  ((c_round ct = 0 /\ exists g, In g genesis /\ cert_eqb g ct = true) \/ accepted_cert averify (bls_keys c) ct').
Proof.
  intros Hwf H1 H2. unfold validate_received in H1.
  destruct (aggregated_signature (c_state ct)) as [sig|] eqn:Es; [|discriminate].
  inversion H1; subst ct1; clear H1. pose proof H2 as H3.
  apply validate_ok in H2; [|reflexivity]. cbn in H2. destruct H2 as [He H2].
  unfold validate_and_verify in H3. change (c_epoch (set_state ct (Unverified sig))) with (c_epoch ct) in *.
  rewrite He in H3. rewrite N.eqb_refl in H3. cbn [negb] in H3.
  destruct H2 as [[Hr [g [Hg Eg]]]|(Hh & Hc & Hq & sig' & Hs & Ha)].
  - change (c_round (set_state ct (Unverified sig))) with (c_round ct) in *.
    assert (Hr' : c_round ct = 0) by exact Hr.
    assert (Ex : existsb (fun g => cert_eqb g (set_state ct (Unverified sig))) genesis = true).
    { apply existsb_exists. exists g. auto. }
    rewrite Hr' in H3. rewrite Ex in H3. cbn in H3. inversion H3; subst ct'. cbn. repeat split; auto. left; split; auto. exists g. split; auto.
  - split; auto. split; auto. right. inversion Hs; subst sig'.
    rewrite wf_quorum_n in Hq; auto.
    destruct ((c_round (set_state ct (Unverified sig)) =? 0) && existsb (fun g => cert_eqb g (set_state ct (Unverified sig))) genesis).
    + inversion H3; subst ct'. exists sig. auto.
    + change (c_header (set_state ct (Unverified sig))) with (c_header ct) in H3. rewrite Hh in H3. unfold signed_by in *. cbn [c_signers set_state] in *.
      destruct (signed_by_walk 0 (bls_keys c) (c_signers ct)) as [w pks] eqn:E. cbn [fst snd] in *.
      destruct (cm_quorum c <=? w); [|discriminate]. unfold verify_signature in H3. cbn in H3, Ha. rewrite Ha in H3.
      inversion H3; subst ct'. exists sig. unfold signed_by; cbn. rewrite E. cbn. auto.
Qed.

Section Slot.
Variable averify : N -> N -> list N -> bool.
Variable keys : list N.          (* the committee's keys *)
Variable faulty : list N.
Variable signed : N -> N -> Prop.   (* key k produced a signature over digest d *)
Hypothesis Hkeys : NoDup keys.
Hypothesis Hne : keys <> [].
Hypothesis Hf : N.of_nat (length faulty) <= (N.of_nat (length keys) - 1) / 3.
(* unforgeability of the aggregate *)
Hypothesis Hunf : forall d sig pks, averify d sig pks = true -> forall k, In k pks -> ~ In k faulty -> signed k d.

Lemma slot_unique ct1 ct2 :
  accepted_cert averify keys ct1 -> accepted_cert averify keys ct2 ->
  (* honest members sign at most one digest for the slot of these two headers *)
  (forall k, ~ In k faulty -> signed k (c_digest ct1) -> signed k (c_digest ct2) -> c_digest ct1 = c_digest ct2) ->
  c_digest ct1 = c_digest ct2.
Proof.
  intros (s1 & Q1 & V1) (s2 & Q2 & V2) Hone.
  unfold signed_by in *.
  destruct (signed_by_walk 0 keys (c_signers ct1)) as [w1 p1] eqn:E1.
  destruct (signed_by_walk 0 keys (c_signers ct2)) as [w2 p2] eqn:E2. cbn in *.
  apply walk_any in E1 as [-> S1]. apply walk_any in E2 as [-> S2].
  destruct (quorum_keys_inter keys p1 p2 faulty) as (k & K1 & K2 & K3); auto.
  apply (Hone k); auto; eapply Hunf; eauto.
Qed.
End Slot.

Lemma slot_unique_received averify genesis c faulty (signed : N -> N -> Prop) :
  built c ->
  N.of_nat (length faulty) <= (N.of_nat (length (bls_keys c)) - 1) / 3 ->
  (forall d sig pks, averify d sig pks = true -> forall k, In k pks -> ~ In k faulty -> signed k d) ->
  forall r1 r2 ct1 ct2 ct1' ct2',
  validate_received r1 = Ok ct1 -> validate_and_verify averify genesis c ct1 = Ok ct1' ->
  validate_received r2 = Ok ct2 -> validate_and_verify averify genesis c ct2 = Ok ct2' ->
  c_round ct1' <> 0 ->
  c_origin ct1' = c_origin ct2' -> c_epoch ct1' = c_epoch ct2' -> c_round ct1' = c_round ct2' ->
  (forall k h1 h2, ~ In k faulty -> signed k (h_digest h1) -> signed k (h_digest h2) ->
     h_author h1 = h_author h2 -> h_epoch h1 = h_epoch h2 -> h_round h1 = h_round h2 -> h_digest h1 = h_digest h2) ->
  c_digest ct1' = c_digest ct2'.
Proof.
  intros Hb Hf Hunf r1 r2 ct1 ct2 ct1' ct2' R1 V1 R2 V2 Hr0 Ho He Hr Hone.
  pose proof (built_wf _ Hb) as Hwf.
  destruct (validate_received_accepted _ _ _ _ _ _ Hwf R1 V1) as (H1 & _ & A1).
  destruct (validate_received_accepted _ _ _ _ _ _ Hwf R2 V2) as (H2 & _ & A2).
  assert (Hne : bls_keys c <> []).
  { pose proof (wf_size _ Hwf) as HS. unfold cm_size, bls_keys, bm_keys in *. destruct (cm_auths c); cbn in *; [lia|discriminate]. }
  destruct A1 as [[Z _]|A1]; [unfold c_round in *; rewrite H1 in *; congruence|].
  destruct A2 as [[Z _]|A2]; [unfold c_round in *; rewrite H2 in *; congruence|].
  apply (slot_unique averify (bls_keys c) faulty signed (wf_keys_NoDup c Hwf) Hne Hf Hunf ct1' ct2' A1 A2).
  intros k Hh S1 S2. exact (Hone k (c_header ct1') (c_header ct2') Hh S1 S2 Ho He Hr).
Qed.
