(* Proofs for C30: batches of fetched certificates. *)
From Verif Require Import Util Types CommitteeModel CertModel SyncModel SyncSpec.
Local Open Scope N_scope.

Section Fetched.
Variable averify : N -> N -> list N -> bool.
Variable genesis : list cert.
Variable com : committee.
Variable interval gc : N.


Definition outcome (ap : list N) (x y : cert) : Prop :=
  if requires_direct interval ap x then check_direct averify genesis com gc x = Ok y else mark_indirect x = Ok y.

Lemma set_nth_app {A} (pre : list A) x y t : set_nth (length pre) x (pre ++ y :: t) = pre ++ x :: t.
Proof. induction pre as [|a pre IH]; cbn; [reflexivity|]. f_equal. exact IH. Qed.

Lemma classify_sound ap : forall l i marked w done, classify interval ap i l = Ok (marked, w) ->
  verify_all averify genesis com gc w = Ok done -> forall pre, length pre = i ->
  exists out, fold_left (fun acc x => set_nth (fst x) (snd x) acc) done (pre ++ marked) = pre ++ out /\ Forall2 (outcome ap) l out.
Proof.
  induction l as [|x l IH]; cbn [classify]; intros i marked w done H V pre Hp.
  - injection H as <- <-. cbn in V. injection V as <-. exists []. split; [reflexivity|constructor].
  - unfold outcome in *. destruct (requires_direct interval ap x) eqn:R.
    + destruct (classify interval ap (S i) l) as [[t' w']|] eqn:C; [|discriminate].
      injection H as <- <-. cbn [app verify_all] in V.
      destruct (check_direct averify genesis com gc x) as [y|] eqn:D; [|discriminate].
      destruct (verify_all averify genesis com gc w') as [d'|] eqn:V'; [|discriminate]. injection V as <-.
      cbn [fold_left fst snd]. subst i. rewrite set_nth_app.
      destruct (IH _ _ _ _ C V' (pre ++ [y])) as (out & F & O); [rewrite app_length; cbn; lia|].
      rewrite <- !app_assoc in F. cbn in F. exists (y :: out). split; [exact F|]. constructor; [rewrite R; exact D|exact O].
    + destruct (mark_indirect x) as [y|] eqn:D; [|discriminate].
      destruct (classify interval ap (S i) l) as [[t' w']|] eqn:C; [|discriminate].
      injection H as <- <-. cbn [app] in V. subst i.
      destruct (IH _ _ _ _ C V (pre ++ [y])) as (out & F & O); [rewrite app_length; cbn; lia|].
      rewrite <- !app_assoc in F. cbn in F. exists (y :: out). split; [exact F|]. constructor; [rewrite R; exact D|exact O].
Qed.
Lemma classify_complete ap : forall l i out, Forall2 (outcome ap) l out ->
  exists marked w done, classify interval ap i l = Ok (marked, w) /\ verify_all averify genesis com gc w = Ok done.
Proof.
  intros l i out H. revert i. induction H as [|x y l out H _ IH]; intros i.
  - exists [], [], []. split; reflexivity.
  - destruct (IH (S i)) as (m & w & d & C & V). cbn [classify]. unfold outcome in H.
    destruct (requires_direct interval ap x) eqn:R.
    + rewrite C. exists (x :: m), ((i, x) :: w), ((i, y) :: d). split; [reflexivity|]. cbn. rewrite H, V. reflexivity.
    + rewrite H, C. exists (y :: m), w, d. split; [reflexivity|exact V].
Qed.
Lemma Forall2_fun {A B} (R : A -> B -> Prop) : (forall x y z, R x y -> R x z -> y = z) ->
  forall l a b, Forall2 R l a -> Forall2 R l b -> a = b.
Proof.
  intros F l a b H. revert b. induction H as [|x y l a H _ IH]; intros b Hb; inversion Hb; subst; [reflexivity|].
  f_equal; [eapply F; eassumption|auto].
Qed.
Lemma outcome_fun ap x y z : outcome ap x y -> outcome ap x z -> y = z.
Proof. unfold outcome. destruct (requires_direct interval ap x); congruence. Qed.

Lemma verify_collection_iff l out :
  verify_collection averify genesis com interval gc l = Ok out <-> Forall2 (outcome (flat_map c_parents l)) l out.
Proof.
  unfold verify_collection. set (ap := flat_map c_parents l). split; intros H.
  - destruct (classify interval ap 0 l) as [[m w]|] eqn:C; [|discriminate].
    destruct (verify_all averify genesis com gc w) as [d|] eqn:V; [|discriminate]. injection H as <-.
    destruct (classify_sound _ _ _ _ _ _ C V [] eq_refl) as (out & F & O). cbn in F. rewrite F. exact O.
  - destruct (classify_complete ap l 0 out H) as (m & w & d & C & V). rewrite C, V. f_equal.
    destruct (classify_sound _ _ _ _ _ _ C V [] eq_refl) as (out' & F & O). cbn in F. rewrite F.
    eapply Forall2_fun; [apply outcome_fun|exact O|exact H].
Qed.

Definition reset (x y : cert) : Prop :=
  exists s, aggregated_signature (c_state x) = Some s /\ y = set_state x (Unverified s).
Lemma reset_all_iff l l' : reset_all l = Ok l' <-> Forall2 reset l l'.
Proof.
  revert l'. induction l as [|x l IH]; intros l'; cbn [reset_all].
  - split; intros H; [injection H as <-; constructor|inversion H; reflexivity].
  - unfold validate_received. split; intros H.
    + destruct (aggregated_signature (c_state x)) as [s|] eqn:A; [|discriminate].
      destruct (reset_all l) as [t|]; [|discriminate]. injection H as <-. constructor; [exists s; auto|apply IH; reflexivity].
    + inversion H as [|? y ? t (s & A & E) T]; subst. rewrite A. apply IH in T. rewrite T. reflexivity.
Qed.
Lemma reset_same l l' : Forall2 reset l l' -> map c_header l' = map c_header l /\ map c_signers l' = map c_signers l.
Proof.
  induction 1 as [|x y l l' (s & _ & ->) _ [IH1 IH2]]; [split; reflexivity|]. cbn. rewrite IH1, IH2. split; reflexivity.
Qed.
Lemma parents_hdr l l' : map c_header l = map c_header l' -> flat_map c_parents l = flat_map c_parents l'.
Proof.
  revert l'. induction l as [|x l IH]; destruct l' as [|y l']; cbn; intros H; try discriminate; [reflexivity|].
  injection H as H1 H2. unfold c_parents at 1 3. rewrite H1. f_equal. auto.
Qed.

(* what a direct check that passes shows about an unverified certificate *)
Lemma direct_ok x s y : c_state x = Unverified s -> check_direct averify genesis com gc x = Ok y ->
  c_header y = c_header x /\ c_signers y = c_signers x /\
  (signature_checked averify com gc y \/
   (y = x /\ c_round x = 0 /\ exists g, In g genesis /\ c_digest g = c_digest x)).
Proof.
  intros S H. unfold check_direct in H. destruct (c_round x <? gc) eqn:G; [discriminate|]. apply N.ltb_ge in G.
  destruct (validate_and_verify averify genesis com x) as [y'|e] eqn:V; [|discriminate]. injection H as ->.
  unfold validate_and_verify in V. destruct (c_epoch x =? cm_epoch com) eqn:E; [|discriminate]. apply N.eqb_eq in E. cbn [negb] in V.
  destruct ((c_round x =? 0) && existsb (fun g => cert_eqb g x) genesis) eqn:Z.
  - injection V as <-. apply andb_true_iff in Z as [Z1 Z2]. apply N.eqb_eq in Z1. apply existsb_exists in Z2 as (g & Hg & Eg).
    split; [reflexivity|]. split; [reflexivity|]. right. split; [reflexivity|]. split; [exact Z1|]. exists g. split; [exact Hg|].
    unfold cert_eqb in Eg. rewrite !andb_true_iff, !N.eqb_eq in Eg. apply Eg.
  - destruct (header_validate (c_header x) com) as [[]|] eqn:HV; [|discriminate].
    destruct (signed_by x (bls_keys com)) as [w pks] eqn:SB. destruct (cm_quorum com <=? w) eqn:Q; [|discriminate]. apply N.leb_le in Q.
    unfold verify_signature in V. rewrite S in V. destruct (averify (c_digest x) s pks) eqn:AV; [|discriminate]. injection V as <-.
    split; [reflexivity|]. split; [reflexivity|]. left. unfold signature_checked.
    change (signed_by (set_state x (VerifiedDirectly s)) (bls_keys com)) with (signed_by x (bls_keys com)). rewrite SB.
    repeat split; try assumption. exists s. split; [reflexivity|exact AV].
Qed.

Lemma direct_state x s y : c_state x = Unverified s -> check_direct averify genesis com gc x = Ok y -> is_verified y = true ->
  y = set_state x (VerifiedDirectly s).
Proof.
  intros S H V. unfold check_direct in H. destruct (c_round x <? gc); [discriminate|]. unfold validate_and_verify in H.
  destruct (negb (c_epoch x =? cm_epoch com)); [discriminate|].
  destruct ((c_round x =? 0) && existsb (fun g => cert_eqb g x) genesis).
  - injection H as <-. unfold is_verified in V. rewrite S in V. discriminate.
  - destruct (header_validate (c_header x) com); [|discriminate]. destruct (signed_by x (bls_keys com)) as [w pks].
    destruct (cm_quorum com <=? w); [|discriminate]. unfold verify_signature in H. rewrite S in H.
    destruct (averify (c_digest x) s pks); [|discriminate]. injection H as <-. reflexivity.
Qed.

Lemma process_fetched_iff l out : process_fetched averify genesis com interval gc l = Ok out <->
  exists l', Forall2 reset l l' /\ Forall2 (outcome (flat_map c_parents l)) l' out.
Proof.
  unfold process_fetched. split.
  - destruct (reset_all l) as [l'|] eqn:R; [|discriminate]. intros H. apply reset_all_iff in R. apply verify_collection_iff in H.
    exists l'. split; [exact R|]. rewrite (parents_hdr l l'); [exact H|]. symmetry. apply (reset_same _ _ R).
  - intros (l' & R & H). rewrite (parents_hdr l l') in H by (symmetry; apply (reset_same _ _ R)).
    apply reset_all_iff in R. rewrite R. apply verify_collection_iff. exact H.
Qed.

Lemma compose_outcome ap l l' out : Forall2 reset l l' -> Forall2 (outcome ap) l' out ->
  Forall2 (fun x y => exists s, aggregated_signature (c_state x) = Some s /\ outcome ap (set_state x (Unverified s)) y) l out.
Proof.
  intros R. revert out. induction R as [|x y l l' (s & A & ->) _ IH]; intros out O; inversion O; subst; constructor.
  - exists s. auto.
  - auto.
Qed.
Lemma outcome_same ap s x y : outcome ap (set_state x (Unverified s)) y -> c_header y = c_header x /\ c_signers y = c_signers x.
Proof.
  unfold outcome. destruct (requires_direct interval ap (set_state x (Unverified s))).
  - intros H. destruct (direct_ok (set_state x (Unverified s)) s _ eq_refl H) as (H1 & H2 & _). split; [exact H1|exact H2].
  - cbn. intros H. injection H as <-. split; reflexivity.
Qed.
End Fetched.
