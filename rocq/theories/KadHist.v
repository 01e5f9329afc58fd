(** C63: every history keeps the invariants. *)
From Verif Require Import Util KadModel KadSpec KadProofs KadRec KadProv.
Local Open Scope N_scope.

Section S.
Variable kh : N -> N.
Variable cfg : kcfg.
Variable loads : krec -> bool.
Variables (kd : kind) (node local : N).
Hypothesis kh_inj : forall a b, kh a = kh b -> a = b.
Notation reach := (reach kh cfg loads kd node local).
Notation rinv := (rinv kh cfg loads kd node local).
Notation pinv := (pinv kh cfg kd).

Lemma rinv_same h h' t d s d' s' : rinv h t d s -> recs d' kd = recs d kd ->
  s_kind s' = s_kind s -> s_node s' = s_node s -> s_local s' = s_local s -> s_nrec s' = s_nrec s ->
  (forall k, last_rec loads h' k = last_rec loads h k) -> (careful h' -> careful h) -> rinv h' t d' s'.
Proof using Type.
  clear kh_inj. intros [Rk Rn Rl Rs Ry RL Rle Req] E A B C D F G. constructor; rewrite ?E; auto; try congruence.
  - intros k now L. rewrite F. auto.
  - rewrite D. auto.
Qed.
Lemma pinv_same h h' t d s d' s' : pinv h t d s -> provs d' kd = provs d kd -> s_nprov s' = s_nprov s ->
  (forall k p, last_prov h' k p = last_prov h k p) -> pinv h' t d' s'.
Proof using Type.
  clear kh_inj. intros [Ps Pr Pk PL PS Pe Ple] E A F. constructor; rewrite ?E; auto; try congruence.
  - intros k p now L. rewrite F. auto.
  - intros k p x X. rewrite F. auto.
Qed.

Lemma reach_inv h t d s : reach h t d s -> rinv h t d s /\ pinv h t d s.
Proof using kh_inj.
  induction 1 as [t d E1 E2|h t d s t' H [IR IP] L|h t d s r d' s' e H [IR IP] P|h t d s k d' s' b H [IR IP] P B|h t d s r d' s' e H [IR IP] P|
    h t d s k p d' s' H [IR IP] P|h t d s d' s' H [IR IP] P|h t d s k H [IR IP] P|h t d s d' H [IR IP] P Q].
  - split.
    + constructor; cbn [new_store s_kind s_node s_local s_nrec]; rewrite ?E1; auto.
      * constructor.
      * intros e [].
      * cbn. lia.
      * cbn. lia.
    + constructor; cbn [new_store s_nprov]; rewrite ?E2.
      * constructor.
      * intros ? ? X. discriminate X.
      * intros ? X. destruct X. reflexivity.
      * reflexivity.
      * intros ? ? ? X. discriminate X.
      * reflexivity.
      * cbn. lia.
  - split.
    + destruct IR as [Rk Rn Rl Rs Ry RL Rle Req]. constructor; auto. intros k now L'. apply RL. lia.
    + destruct IP as [Ps Pr Pk PL PS Pe Ple]. constructor; auto. intros k p now L'. apply PL. lia.
  - assert (Ek : s_kind s = kd) by apply IR.
    split; [eapply rinv_put; eauto|].
    destruct (put_cases kh cfg d s t r) as (d2 & s2 & e2 & P2 & _ & _ & _ & Np & Pp & _); [rewrite Ek; apply IR|rewrite Ek; eapply ri_key; eauto|].
    rewrite P in P2. injection P2 as <- <- <-. eapply pinv_same; eauto.
  - split; [eapply rinv_remove; eauto|]. eapply pinv_same; eauto.
    + unfold remove in P. injection P as <- <-. apply provs_set_recs.
    + unfold remove in P. injection P as <- <-. reflexivity.
  - assert (Ek : s_kind s = kd) by apply IR.
    split; [|eapply pinv_add; eauto].
    destruct (add_cases kh cfg kd d s t r Ek) as (d2 & s2 & e2 & P2 & A & B & C & D & F & _); [apply IP|].
    rewrite P in P2. injection P2 as <- <- <-. eapply rinv_same; eauto; congruence.
  - assert (Ek : s_kind s = kd) by apply IR.
    split; [|eapply pinv_remprov; eauto].
    assert (X : recs d' kd = recs d kd /\ s_kind s' = s_kind s /\ s_node s' = s_node s /\ s_local s' = s_local s /\ s_nrec s' = s_nrec s).
    { unfold remove_provider in P. rewrite Ek in P. destruct (bm_lookup (kh k) (provs d kd)) as [row|]; [|injection P as <- <-; auto].
      destruct (match row with Some l => filter (fun r => negb (p_peer r =? p)) l | None => [] end); injection P as <- <-; rewrite recs_set_provs; auto. }
    destruct X as (X1 & X2 & X3 & X4 & X5). eapply rinv_same; eauto.
  - assert (Ek : s_kind s = kd) by apply IR.
    split; [eapply rinv_restart; eauto|].
    destruct (start_shape kh loads kd node local d t) as (d1 & s1 & E & Ek1 & _ & _ & Np & Pp & _ & _); [apply IR|eapply ri_key; eauto|].
    rewrite E in P. assert (P' : scrub_corrupt_providers d1 s1 = (d', s')) by congruence.
    assert (I1 : pinv h t d1 s1). { eapply pinv_same; eauto. destruct IP as [Ps Pr Pk PL PS Pe Ple]. congruence. }
    eapply pinv_scrub; eauto.
  - split; [|eapply pinv_corrupt; eauto]. eapply rinv_same; eauto. apply recs_set_provs.
  - split; [eapply rinv_same; eauto|eapply pinv_same; eauto].
Qed.

(** the announcements of a key *)
Lemma find_live_in now l p x : NoDup (map p_peer l) ->
  (In x (filter (fun r => negb (expired (p_exp r) now)) l) /\ p_peer x = p <-> live_prov now (find (fun r => p_peer r =? p) l) = Some x).
Proof using Type.
  clear kh_inj. intros ND. rewrite filter_In. split.
  - intros [[Hi He] <-]. rewrite (find_peer l x); auto. cbn. destruct (expired (p_exp x) now); [discriminate He|reflexivity].
  - destruct (find _ l) as [y|] eqn:F; [|discriminate]. apply find_some in F as [F1 F2]. cbn. destruct (expired (p_exp y) now) eqn:E; [discriminate|].
    intros X; injection X as <-. rewrite E. apply N.eqb_eq in F2. auto.
Qed.
Lemma providers_row d s now k : s_kind s = kd -> providers kh d s now k =
  match bm_lookup (kh k) (provs d kd) with Some (Some l) => filter (fun r => negb (expired (p_exp r) now)) l | _ => [] end.
Proof using Type. intros E. unfold providers. rewrite E. reflexivity. Qed.
Lemma providers_In h t d s now k x : reach h t d s -> t <= now ->
  (In x (providers kh d s now k) <-> live_prov now (last_prov h k (p_peer x)) = Some x).
Proof using kh_inj.
  intros R L. destruct (reach_inv _ _ _ _ R) as [IR IP]. rewrite providers_row; [|apply IR]. rewrite <- (pi_live _ _ _ _ _ _ _ IP); auto.
  destruct (bm_lookup (kh k) (provs d kd)) as [[l|]|] eqn:E; cbn [frow]; [|split; [intros []|discriminate]..].
  destruct (pi_row _ _ _ _ _ _ _ IP _ _ E) as (_ & ND & _ & _). rewrite <- (find_live_in now l (p_peer x) x ND). tauto.
Qed.
Lemma last_prov_key h k p x : last_prov h k p = Some x -> p_key x = k /\ p_peer x = p.
Proof using Type.
  clear kh_inj. induction h as [|e h IH]; [discriminate|]. cbn [last_prov]. destruct e as [r e|k' b|r [e|]|k' p'| |k']; auto.
  - destruct ((p_key r =? k) && (p_peer r =? p)) eqn:E; auto. intros X; injection X as <-. apply andb_prop in E as [A B]. apply N.eqb_eq in A, B. auto.
  - destruct (_ && _); auto. discriminate.
  - destruct (_ =? _); auto. discriminate.
Qed.
Lemma last_rec_key h k x : last_rec loads h k = Some x -> k_key x = k.
Proof using Type.
  clear kh_inj. induction h as [|e h IH]; [discriminate|]. cbn [last_rec]. destruct e as [r [e|]|k' b|r e|k' p'| |k']; auto.
  - destruct (N.eqb_spec (k_key r) k); auto. intros X; injection X as <-. auto.
  - destruct (_ =? _); auto. discriminate.
  - destruct (last_rec loads h k) as [y|]; [|discriminate]. destruct (loads y); [auto|discriminate].
Qed.
End S.
