(** C30: certificates taken from a peer's answer to a fetch request. *)
From Verif Require Import Util Types CommitteeModel CertModel SyncModel SyncSpec SyncProofs1.
Local Open Scope N_scope.

Lemma Forall2_In_l {A B} (R : A -> B -> Prop) l l' x : Forall2 R l l' -> In x l -> exists y, In y l' /\ R x y.
Proof. induction 1 as [|a b l l' H _ IH]; cbn; [intros []|]. intros [->|Hx]; [eauto|]. destruct (IH Hx) as (y & ? & ?). eauto. Qed.
Lemma Forall2_In_r {A B} (R : A -> B -> Prop) l l' y : Forall2 R l l' -> In y l' -> exists x, In x l /\ R x y.
Proof. induction 1 as [|a b l l' H _ IH]; cbn; [intros []|]. intros [->|Hx]; [eauto|]. destruct (IH Hx) as (x & ? & ?). eauto. Qed.
Lemma rank_bound (f : cert -> nat) l : exists b, forall x, In x l -> (f x <= b)%nat.
Proof.
  induction l as [|a l [b IH]]; [exists 0%nat; intros x []|]. exists (f a + b)%nat. intros x [<-|Hx]; [lia|]. specialize (IH x Hx). lia.
Qed.

(** An accepted answer is handed on unchanged apart from the verification marks: same certificates, same order, same headers,
    same signer bitmaps. *)
Theorem C30_accepted_batch_is_unchanged : forall averify genesis com interval gc raw out, process_fetched averify genesis com interval gc raw = Ok out ->
  map c_header out = map c_header raw /\ map c_signers out = map c_signers raw.
Proof.
  intros averify genesis com interval gc raw out H. apply process_fetched_iff in H as (l' & R & O).
  pose proof (compose_outcome _ _ _ _ _ _ _ _ _ R O) as F. clear R O. revert F. generalize (flat_map c_parents raw). intros ap F.
  induction F as [|x y raw out (s & _ & H) _ [IH1 IH2]]; [split; reflexivity|].
  apply outcome_same in H as [E1 E2]. cbn [map]. rewrite E1, E2, IH1, IH2. split; reflexivity.
Qed.

(** Every certificate of an accepted answer that is marked verified had its own signature checked, or is an ancestor, through
    parent digests inside the answer, of one that had. *)
Theorem C30_verified_means_backed : forall averify genesis com interval gc raw out, process_fetched averify genesis com interval gc raw = Ok out -> acyclic raw ->
  (forall g x, In g genesis -> In x raw -> c_digest g = c_digest x -> c_parents x = []) ->
  forall y, In y out -> is_verified y = true -> backed (signature_checked averify com gc) out y.
Proof.
  intros averify genesis com interval gc raw out H [rank Hr] Hg y0 Hy0 V0. apply process_fetched_iff in H as (l' & R & O).
  pose proof (compose_outcome _ _ _ _ _ _ _ _ _ R O) as F. clear R O.
  destruct (rank_bound (fun x => rank (c_digest x)) raw) as [b Hb].
  assert (K : forall n x y, In x raw -> In y out -> (b - rank (c_digest x) < n)%nat ->
     (exists s, aggregated_signature (c_state x) = Some s /\
        outcome averify genesis com interval gc (flat_map c_parents raw) (set_state x (Unverified s)) y) ->
     backed (signature_checked averify com gc) out y \/ (c_parents y = [] /\ is_verified y = false)).
  { induction n as [|n IH]; intros x y Hx Hy Hn (s & A & Ho); [lia|].
    destruct (outcome_same _ _ _ _ _ _ _ _ _ Ho) as [Eh _].
    unfold outcome in Ho. destruct (requires_direct interval (flat_map c_parents raw) (set_state x (Unverified s))) eqn:RD.
    - destruct (direct_ok _ _ _ _ (set_state x (Unverified s)) s _ eq_refl Ho) as (_ & _ & [C|(-> & _ & g & G & D)]).
      + left. apply BDirect; assumption.
      + right. split; [|reflexivity]. change (c_parents x = []). apply (Hg g x G Hx D).
    - cbn in Ho. injection Ho as <-. unfold requires_direct in RD. apply orb_false_iff in RD as [RD _].
      apply negb_false_iff, memN_In, in_flat_map in RD as (x2 & Hx2 & P).
      destruct (Forall2_In_l _ _ _ _ F Hx2) as (y2 & Hy2 & O2).
      assert (E2 : c_header y2 = c_header x2) by (destruct O2 as (s2 & _ & O2); apply (outcome_same _ _ _ _ _ _ _ _ _ O2)).
      specialize (Hr x x2 Hx Hx2 P). pose proof (Hb x2 Hx2) as B2. cbn beta in B2.
      destruct (IH x2 y2 Hx2 Hy2 ltac:(lia) O2) as [B|[B _]].
      + left. apply BParent with y2; [exact Hy|exact B|]. unfold c_parents. rewrite E2. exact P.
      + exfalso. unfold c_parents in B. rewrite E2 in B. unfold c_parents in P. rewrite B in P. exact P. }
  destruct (Forall2_In_r _ _ _ _ F Hy0) as (x0 & Hx0 & O0).
  destruct (K _ x0 y0 Hx0 Hy0 (Nat.lt_succ_diag_r _) O0) as [B|[_ B]]; [exact B|congruence].
Qed.

(** The check is not skipped where nothing else vouches for the certificate: if a certificate of the answer is no other
    certificate's parent (or lies on the periodic round) and its own signature does not check, the whole answer is refused. *)
Theorem C30_unvouched_certificate_is_checked : forall averify genesis com interval gc raw x, In x raw ->
  (forall y, In y raw -> ~ In (c_digest x) (c_parents y)) \/ (interval <> 0 /\ c_round x mod interval = 0) ->
  (forall s, aggregated_signature (c_state x) = Some s -> ~ signature_checked averify com gc (set_state x (VerifiedDirectly s))) ->
  (forall g, In g genesis -> c_digest g <> c_digest x) ->
  exists e, process_fetched averify genesis com interval gc raw = Err e.
Proof.
  intros averify genesis com interval gc raw x Hx L B G. destruct (process_fetched averify genesis com interval gc raw) as [out|e] eqn:E; [|eauto]. exfalso. apply process_fetched_iff in E as (l' & R & O).
  pose proof (compose_outcome _ _ _ _ _ _ _ _ _ R O) as F. destruct (Forall2_In_l _ _ _ _ F Hx) as (y & _ & s & A & Ho).
  assert (RD : requires_direct interval (flat_map c_parents raw) (set_state x (Unverified s)) = true).
  { unfold requires_direct. apply orb_true_iff. destruct L as [L|[L1 L2]].
    - left. apply negb_true_iff, memN_nIn. rewrite in_flat_map. intros (z & Hz & P). exact (L z Hz P).
    - right. unfold multiple_of. destruct (interval =? 0) eqn:Z; [apply N.eqb_eq in Z; contradiction|]. apply N.eqb_eq. exact L2. }
  unfold outcome in Ho. rewrite RD in Ho. specialize (B s A).
  destruct (direct_ok _ _ _ _ (set_state x (Unverified s)) s _ eq_refl Ho) as (_ & _ & [C|(_ & _ & g & G1 & G2)]); [|exact (G g G1 G2)].
  apply B. rewrite (direct_state _ _ _ _ (set_state x (Unverified s)) s _ eq_refl Ho) in C.
  - exact C.
  - destruct C as (_ & _ & _ & _ & s' & C & _). unfold is_verified. rewrite C. reflexivity.
Qed.

(** So any fact about headers that every signature-checked certificate has and that passes from a certificate to its parents
    (such as "an honest member saw it in its own store") holds of every certificate marked verified. *)
Theorem C30_facts_pass_to_ancestors : forall averify genesis com interval gc (fact : header -> Prop) raw out, process_fetched averify genesis com interval gc raw = Ok out -> acyclic raw ->
  (forall g x, In g genesis -> In x raw -> c_digest g = c_digest x -> c_parents x = []) ->
  (forall y, signature_checked averify com gc y -> fact (c_header y)) ->
  (forall y z, fact (c_header z) -> In (c_digest y) (c_parents z) -> fact (c_header y)) ->
  forall y, In y out -> is_verified y = true -> fact (c_header y).
Proof.
  intros averify genesis com interval gc fact raw out H A G F1 F2 y Hy V. pose proof (C30_verified_means_backed _ _ _ _ _ raw out H A G y Hy V) as B. clear Hy V.
  induction B as [y _ C|y z _ _ IH P]; [auto|]. exact (F2 y z IH P).
Qed.

(** A concrete answer of four certificates in a committee of four: a round-3 certificate that is checked, its two round-2 parents
    that are not, and an unrelated round-2 certificate that is checked on its own. [ex_av] accepts signature = digest + number of
    keys. The hypotheses of the theorems above hold for it. With a wrong signature on the leaf, or too few signers on the
    unrelated certificate, the whole answer is refused. *)
Definition ex_com : committee :=
  match build (fun k => k + 100) 5 [(1, 0); (2, 0); (3, 0); (4, 0)] with Some c => c | None => mkCommittee 0 [] [] 0 0 end.
Definition ex_av (d sig : N) (keys : list N) : bool := sig =? d + N.of_nat (length keys).
Definition ex_ct (r d a : N) (ps : list N) (sig : N) (signers : list N) : cert :=
  mkCert (mkHeader a r 5 0 [] ps 0 0 0 d) (VerifiedDirectly sig) signers.
Definition ex_raw (leafsig : N) (lone : list N) : list cert :=
  [ex_ct 2 20 101 [1; 2; 3] 0 []; ex_ct 3 30 102 [20; 21] leafsig [0; 1; 2]; ex_ct 2 21 103 [1; 2; 3] 7 [9];
   ex_ct 2 22 104 [1; 2; 3] 25 lone].
Example C30_example :
  process_fetched ex_av [] ex_com 50 1 (ex_raw 33 [1; 2; 3]) =
    Ok [mkCert (c_header (ex_ct 2 20 101 [1; 2; 3] 0 [])) (VerifiedIndirectly 0) [];
        mkCert (c_header (ex_ct 3 30 102 [20; 21] 0 [])) (VerifiedDirectly 33) [0; 1; 2];
        mkCert (c_header (ex_ct 2 21 103 [1; 2; 3] 0 [])) (VerifiedIndirectly 7) [9];
        mkCert (c_header (ex_ct 2 22 104 [1; 2; 3] 0 [])) (VerifiedDirectly 25) [1; 2; 3]] /\
  process_fetched ex_av [] ex_com 50 1 (ex_raw 34 [1; 2; 3]) = Err (Invalid InvalidSignature) /\
  process_fetched ex_av [] ex_com 50 1 (ex_raw 33 [1; 2]) = Err (Invalid Inquorate) /\
  acyclic (ex_raw 33 [1; 2; 3]).
Proof.
  repeat split; try (vm_compute; reflexivity). exists N.to_nat. intros x y Hx Hy P.
  assert (K : forallb (fun x => forallb (fun y => implb (memN (c_digest x) (c_parents y)) (c_digest x <? c_digest y)) (ex_raw 33 [1; 2; 3]))
     (ex_raw 33 [1; 2; 3]) = true) by (vm_compute; reflexivity).
  rewrite forallb_forall in K. specialize (K x Hx). rewrite forallb_forall in K. specialize (K y Hy).
  apply memN_In in P. rewrite P in K. apply N.ltb_lt in K. lia.
Qed.
(** What an ancestor's mark does not say: its signer bitmap and its signature are not looked at. In the answer above the second
    parent carries the signature 7 of the non-member at position 9, and is marked verified. *)
Example C30_indirect_signature_is_not_checked :
  exists y out, process_fetched ex_av [] ex_com 50 1 (ex_raw 33 [1; 2; 3]) = Ok out /\ In y out /\ is_verified y = true /\
    fst (signed_by y (bls_keys ex_com)) = 0.
Proof.
  exists (mkCert (c_header (ex_ct 2 21 103 [1; 2; 3] 0 [])) (VerifiedIndirectly 7) [9]). eexists.
  split; [apply C30_example|]. split; [cbn; auto|]. split; reflexivity.
Qed.
