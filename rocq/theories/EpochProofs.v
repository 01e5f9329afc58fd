From Verif Require Import Util EpochModel EpochSpec.

Lemma uniq_In x l : In x (uniq l) <-> In x l.
Proof. apply nodup_In. Qed.
Lemma uniq_NoDup l : NoDup (uniq l).
Proof. apply NoDup_nodup. Qed.
Lemma uniq_id l : NoDup l -> uniq l = l.
Proof. apply nodup_fixed_point. Qed.
Lemma uniq_len_NoDup l : length (uniq l) = length l -> NoDup l.
Proof.
  unfold uniq. induction l as [|x l IH]; simpl; intros H; [constructor|].
  destruct (in_dec N.eq_dec x l) as [Hin|Hn].
  - exfalso. assert (forall l' : list N, length (nodup N.eq_dec l') <= length l') as Hle.
    { induction l' as [|y l' IH']; simpl; [auto|]. destruct (in_dec N.eq_dec y l'); simpl; lia. }
    specialize (Hle l). lia.
  - constructor; auto.
Qed.
Lemma subset_incl a b : subset a b = true <-> incl a b.
Proof.
  unfold subset, incl. rewrite forallb_forall. split; intros H x Hx.
  - apply memN_In. auto.
  - apply memN_In. auto.
Qed.

(* ---------- the walk ---------- *)
Lemma walk_len com : forall i idx ks n, walk i com idx = (ks, n) -> length ks = n.
Proof.
  induction com as [|k com IH]; intros i idx ks n; cbn [walk].
  - intros H; injection H as <- <-. auto.
  - destruct idx as [|j idx]; [apply IH|]. destruct (j =? i); [|apply IH].
    destruct (walk (S i) com idx) as [ks' n'] eqn:Ew. intros H; injection H as <- <-. simpl. f_equal. eapply IH; eauto.
Qed.
Lemma walk_incl com : forall i idx ks n, walk i com idx = (ks, n) -> incl ks com.
Proof.
  induction com as [|k com IH]; intros i idx ks n; cbn [walk].
  - intros H; injection H as <- <-. apply incl_refl.
  - destruct idx as [|j idx]; [intros H; apply incl_tl; eapply IH; eauto|]. destruct (j =? i); [|intros H; apply incl_tl; eapply IH; eauto].
    destruct (walk (S i) com idx) as [ks' n'] eqn:Ew. intros H; injection H as <- <-.
    apply incl_cons; [simpl; auto|apply incl_tl; eapply IH; eauto].
Qed.
Lemma walk_NoDup com : NoDup com -> forall i idx ks n, walk i com idx = (ks, n) -> NoDup ks.
Proof.
  induction com as [|k com IH]; intros Hn i idx ks n; cbn [walk].
  - intros H; injection H as <- <-. constructor.
  - inversion Hn as [|? ? H1 H2]; subst. destruct idx as [|j idx]; [apply IH; auto|]. destruct (j =? i); [|apply IH; auto].
    destruct (walk (S i) com idx) as [ks' n'] eqn:Ew. intros H; injection H as <- <-.
    constructor; [|eapply IH; eauto]. intros Hin. apply H1. eapply walk_incl; eauto.
Qed.
(* only listed positions are taken *)
Lemma walk_listed com : forall i idx ks n, walk i com idx = (ks, n) ->
  forall k, In k ks -> exists j, In j idx /\ i <= j /\ nth_error com (j - i) = Some k.
Proof.
  induction com as [|x com IH]; intros i idx ks n; cbn [walk].
  - intros H; injection H as <- <-. simpl; tauto.
  - assert (Hup : forall idx' ks' n', walk (S i) com idx' = (ks', n') -> incl idx' idx -> forall k, In k ks' ->
        exists j, In j idx /\ i <= j /\ nth_error (x :: com) (j - i) = Some k).
    { intros idx' ks' n' Hw Hi k Hk. destruct (IH _ _ _ _ Hw k Hk) as (j & J1 & J2 & J3). exists j.
      split; auto. split; [lia|]. replace (j - i) with (S (j - S i)) by lia. auto. }
    destruct idx as [|j idx].
    + intros H. eapply Hup; eauto. apply incl_refl.
    + destruct (j =? i) eqn:Ej.
      * apply Nat.eqb_eq in Ej. subst j. destruct (walk (S i) com idx) as [ks' n'] eqn:Ew. intros H; injection H as <- <-.
        intros k [<-|Hk].
        -- exists i. split; [simpl; auto|]. split; [auto|]. rewrite Nat.sub_diag. auto.
        -- eapply Hup; eauto. apply incl_tl, incl_refl.
      * intros H. eapply Hup; eauto. apply incl_refl.
Qed.
(* an ascending list within range is taken whole *)
Lemma walk_full com : forall i idx, StronglySorted lt idx -> (forall j, In j idx -> i <= j < i + length com) ->
  walk i com idx = (map (fun j => nth (j - i) com 0%N) idx, length idx).
Proof.
  induction com as [|x com IH]; intros i idx Hs Hr; cbn [walk].
  - destruct idx as [|j idx]; auto. exfalso. specialize (Hr j (or_introl eq_refl)). simpl in Hr. lia.
  - assert (Hgo : forall idx', StronglySorted lt idx' -> (forall j, In j idx' -> S i <= j < i + length (x :: com)) ->
              walk (S i) com idx' = (map (fun j => nth (j - i) (x :: com) 0%N) idx', length idx')).
    { intros idx' H1 H2. rewrite IH; auto.
      - f_equal. apply map_ext_in. intros j Hj. specialize (H2 j Hj). replace (j - i) with (S (j - S i)) by lia. auto.
      - intros j Hj. specialize (H2 j Hj). simpl in H2. lia. }
    destruct idx as [|j idx].
    + rewrite Hgo; auto. intros j [].
    + inversion Hs as [|? ? Hs1 Hs2]; subst. rewrite Forall_forall in Hs2. destruct (j =? i) eqn:Ej.
      * apply Nat.eqb_eq in Ej. subst j. rewrite Hgo; auto.
        -- cbn [map length]. rewrite Nat.sub_diag. auto.
        -- intros j Hj. specialize (Hs2 j Hj). specialize (Hr j (or_intror Hj)). lia.
      * apply Nat.eqb_neq in Ej. apply Hgo; auto.
        intros j' Hj'. pose proof (Hr j' Hj'). pose proof (Hr j (or_introl eq_refl)). simpl in Hj'.
        destruct Hj' as [<-|Hj']; [lia|]. specialize (Hs2 j' Hj'). lia.
Qed.

(* ---------- what a verified certificate means ---------- *)
Lemma verify_super E signed r c : eenv_sound E signed -> NoDup (er_com r) -> verify_with_cert E r c = true ->
  super_signed E signed r /\ ec_hash c = ee_dig E r.
Proof.
  intros [Hd Ha] Hn. unfold verify_with_cert. destruct (N.eqb (ee_dig E r) (ec_hash c)) eqn:Eh; cbn [negb]; [|discriminate].
  apply N.eqb_eq in Eh. destruct (walk 0 (er_com r) (ec_bits c)) as [ks n] eqn:Ew.
  destruct (n <? super_quorum r) eqn:En; [discriminate|]. apply Nat.ltb_ge in En. intros Hv. split; [|auto].
  exists ks. split; [eapply walk_NoDup; eauto|]. split; [eapply walk_incl; eauto|].
  apply walk_len in Ew as Hl. unfold super_quorum in En. split; [lia|]. intros k Hk. rewrite Eh. eapply Ha; eauto.
Qed.

Lemma compatible_spec r exp : committee_compatible r exp = true ->
  NoDup (er_com r) /\ incl (er_com r) exp /\ length exp * 2 <= length (er_com r) * 3 /\
  (length (er_com r) = length exp \/ 4 <= length (er_com r)).
Proof.
  unfold committee_compatible. destruct (length (uniq (er_com r)) =? length (er_com r)) eqn:El; cbn [negb]; [|discriminate].
  apply Nat.eqb_eq in El. apply uniq_len_NoDup in El. rewrite (uniq_id _ El).
  destruct (Nat.compare_spec (length (er_com r)) (length exp)) as [Hc|Hc|Hc]; [| |discriminate].
  - rewrite andb_true_iff, !subset_incl. intros [H1 H2]. split; auto. split; auto. split; [lia|auto].
  - rewrite !andb_true_iff, subset_incl, !Nat.leb_le. intros [[H1 H2] H3]. auto.
Qed.

(* an accepted record has an honest signer of the anchor committee *)
Lemma accepted_honest E signed e r c parent com faulty :
  eenv_sound E signed -> validate_against_anchor E e r c parent com = EValid ->
  NoDup com -> 3 * length (interN com faulty) < length com ->
  er_epoch r = e /\ er_parent r = parent /\ ec_hash c = ee_dig E r /\
  exists k, In k com /\ ~ In k faulty /\ signed k (ee_dig E r).
Proof.
  intros Hs Hv Hn Hf. unfold validate_against_anchor in Hv.
  destruct ((er_epoch r =? e) && N.eqb parent (er_parent r) && committee_compatible r com && verify_with_cert E r c) eqn:Ea; [|discriminate].
  rewrite !andb_true_iff in Ea. destruct Ea as [[[A1 A2] A3] A4]. apply Nat.eqb_eq in A1. apply N.eqb_eq in A2.
  apply compatible_spec in A3 as (B1 & B2 & B3 & _).
  destruct (verify_super _ _ _ _ Hs B1 A4) as [(ks & K1 & K2 & K3 & K4) K5].
  split; auto. split; auto. split; auto.
  destruct (existsb (fun k => negb (memN k faulty)) ks) eqn:Ex.
  - apply existsb_exists in Ex as (k & H1 & H2). exists k. split; auto. split; [|auto].
    apply negb_true_iff in H2. apply memN_nIn. auto.
  - exfalso. assert (Hin : incl ks (interN com faulty)).
    { intros k Hk. apply interN_In. split; auto. apply memN_In.
      destruct (memN k faulty) eqn:Ek; auto. assert (existsb (fun k => negb (memN k faulty)) ks = true); [|congruence].
      apply existsb_exists. exists k. rewrite Ek. auto. }
    pose proof (NoDup_incl_length K1 Hin). lia.
Qed.

(* ---------- the database ---------- *)
Lemma cget_In l d c : cget l d = Some c -> In (d, c) l.
Proof.
  induction l as [|[d' c'] l IH]; simpl; [discriminate|]. destruct (N.eqb d' d) eqn:Ed; intros H; auto.
  apply N.eqb_eq in Ed. injection H as ->. subst. auto.
Qed.
Lemma record_by_epoch_nth s e : db_recs s <> [] -> record_by_epoch s e = nth_error (db_recs s) e.
Proof. unfold record_by_epoch. destruct e, (db_recs s); auto; congruence. Qed.

(* all stored records are true, certificates belong to their records, and the dummy carries the genesis committee *)
Record db_true (E : eenv) (genesis : list N) (truth : nat -> erec) (s : edb) : Prop := {
  dt_recs : forall e r, nth_error (db_recs s) e = Some r -> r = truth e;
  dt_certs : forall d c, In (d, c) (db_certs s) -> exists r, ee_dig E r = d /\ verify_with_cert E r c = true;
  dt_dummy : forall r, db_dummy s = Some r -> uniq (er_com r) = genesis }.

Lemma db_true_new E g t : db_true E g t edb_new.
Proof. constructor; simpl; [intros [|e] r; discriminate|tauto|discriminate]. Qed.

Lemma save_cert_true E g t s w d c r :
  db_true E g t s -> ee_dig E r = d -> verify_with_cert E r c = true -> db_true E g t (snd (db_save_cert w s d c)).
Proof.
  intros H Hd Hv. unfold db_save_cert. destruct (cget (db_certs s) d); [auto|]. destruct w; [|auto].
  destruct H as [H1 H2 H3]. constructor; cbn [snd db_recs db_certs db_dummy]; auto.
  intros d' c' [Heq|Hin]; [|auto]. injection Heq as <- <-. exists r. auto.
Qed.
Lemma save_record_true E g t s w r :
  db_true E g t s -> (er_epoch r = length (db_recs s) -> r = t (er_epoch r)) -> db_true E g t (snd (db_save_record w s r)).
Proof.
  intros H Hr. unfold db_save_record. destruct (er_epoch r <? length (db_recs s)); [auto|].
  destruct (er_epoch r =? length (db_recs s)) eqn:Ee; cbn [negb]; [|auto]. destruct w; [|auto].
  apply Nat.eqb_eq in Ee. destruct H as [H1 H2 H3]. constructor; cbn [snd db_recs db_certs db_dummy]; auto.
  intros e r' Hn. destruct (Nat.lt_ge_cases e (length (db_recs s))) as [Hlt|Hge].
  - rewrite nth_error_app1 in Hn; auto.
  - rewrite nth_error_app2 in Hn by auto. destruct (e - length (db_recs s)) as [|k] eqn:Ek; cbn [nth_error] in Hn.
    + injection Hn as <-. rewrite Hr at 1 by auto. f_equal. lia.
    + destruct k; discriminate.
Qed.
Lemma save_true E g t s w1 w2 r c :
  db_true E g t s -> (er_epoch r = length (db_recs s) -> r = t (er_epoch r)) -> verify_with_cert E r c = true ->
  db_true E g t (snd (db_save E w1 w2 s r c)).
Proof.
  intros H Hr Hv. unfold db_save. pose proof (save_record_true E g t s w1 r H Hr) as H1.
  destruct (db_save_record w1 s r) as [[|] s1]; cbn [snd] in *; [|auto]. eapply save_cert_true; eauto.
Qed.

Lemma ingest_true E signed faulty genesis truth s e r c w1 w2 :
  eenv_sound E signed -> true_chain E signed faulty genesis truth ->
  db_true E genesis truth s -> db_true E genesis truth (ingest E s e r c w1 w2).
Proof.
  intros Hs [T1 T2 T3 T4] H. unfold ingest.
  destruct (validate_downloaded E s e r c) eqn:Ev; [|auto|auto].
  assert (Hpair : exists parent com, validate_against_anchor E e r c parent com = EValid /\
     (er_epoch r = length (db_recs s) -> NoDup com /\ 3 * length (interN com faulty) < length com)).
  { unfold validate_downloaded in Ev. destruct (e =? 0) eqn:E0.
    - apply Nat.eqb_eq in E0. subst e. destruct (committee_keys s 0) as [k|] eqn:Ek; [|discriminate].
      exists DEFAULT_DIGEST, k. split; auto. intros Hlen.
      assert (Hz : er_epoch r = 0). { unfold validate_against_anchor in Ev. destruct (er_epoch r =? 0) eqn:Ez; [apply Nat.eqb_eq in Ez; auto|discriminate]. }
      unfold committee_keys, record_by_epoch in Ek. cbn [Nat.ltb Nat.leb] in Ek. rewrite Hz in Hlen.
      destruct (db_recs s) as [|x l] eqn:Er; [|discriminate].
      destruct (db_dummy s) as [dm|] eqn:Ed; [|discriminate]. injection Ek as <-.
      rewrite (dt_dummy _ _ _ _ H _ Ed). auto.
    - apply Nat.eqb_neq in E0. destruct (record_by_epoch s (e - 1)) as [p|] eqn:Ep; [|discriminate].
      exists (ee_dig E p), (uniq (er_next p)). split; auto. intros Hlen.
      assert (Hz : er_epoch r = e). { unfold validate_against_anchor in Ev. destruct (er_epoch r =? e) eqn:Ez; [apply Nat.eqb_eq in Ez; auto|discriminate]. }
      destruct (db_recs s) as [|x l] eqn:Er; [simpl in Hlen; lia|].
      assert (Hp : p = truth (e - 1)). { apply (dt_recs _ _ _ _ H). rewrite record_by_epoch_nth in Ep; auto. rewrite Er. discriminate. }
      rewrite Hp. rewrite uniq_id by (apply T4). apply T4. }
  destruct Hpair as (parent & com & Hv & Hc).
  assert (Hver : verify_with_cert E r c = true).
  { unfold validate_against_anchor in Hv. destruct (verify_with_cert E r c); auto. rewrite !andb_false_r in Hv. discriminate. }
  apply save_true; auto. intros Hlen. destruct (Hc Hlen) as [C1 C2].
  destruct (accepted_honest E signed e r c parent com faulty Hs Hv C1 C2) as (_ & _ & _ & k & _ & K2 & K3). eauto.
Qed.

(* ---------- votes ---------- *)
Lemma last_index_spec com k : forall i j, last_index i com k = Some j -> i <= j < i + length com /\ nth (j - i) com 0%N = k.
Proof.
  induction com as [|x com IH]; intros i j; cbn [last_index]; [discriminate|].
  destruct (last_index (S i) com k) as [j'|] eqn:El.
  - intros H; injection H as <-. destruct (IH _ _ El) as [H1 H2]. simpl length. split; [lia|].
    replace (j' - i) with (S (j' - S i)) by lia. auto.
  - destruct (N.eqb x k) eqn:Ex; [|discriminate]. intros H; injection H as <-. apply N.eqb_eq in Ex. simpl length. split; [lia|].
    rewrite Nat.sub_diag. auto.
Qed.
Lemma last_index_some com k : forall i, In k com -> exists j, last_index i com k = Some j.
Proof.
  induction com as [|x com IH]; intros i; [intros []|]. cbn [last_index]. intros Hin.
  destruct (last_index (S i) com k) as [j'|] eqn:El; [eauto|].
  destruct Hin as [->|Hin]; [rewrite N.eqb_refl; eauto|]. destruct (IH (S i) Hin) as [j Hj]. congruence.
Qed.
Lemma has_In x l : has x l = true <-> In x l.
Proof.
  unfold has. rewrite existsb_exists. split; [intros (y & H1 & H2); apply Nat.eqb_eq in H2; subst; auto|].
  intros H. exists x. rewrite Nat.eqb_refl. auto.
Qed.
Lemma ins_perm x l : ~ In x l -> Permutation (ins x l) (x :: l).
Proof.
  induction l as [|y l IH]; simpl; intros Hn; auto.
  destruct (x <? y); auto. destruct (x =? y) eqn:Ee; [apply Nat.eqb_eq in Ee; subst; tauto|].
  rewrite IH by tauto. apply perm_swap.
Qed.
Lemma ins_in x l z : In z (ins x l) -> z = x \/ In z l.
Proof.
  induction l as [|y l IH]; cbn [ins]; [intros [<-|[]]; auto|].
  destruct (x <? y); [intros [<-|H]; auto|]. destruct (x =? y); [auto|]. intros [<-|H]; [right; simpl; auto|].
  destruct (IH H) as [->|Hz]; auto. right; simpl; auto.
Qed.
Lemma ins_sorted x l : StronglySorted lt l -> StronglySorted lt (ins x l).
Proof.
  induction l as [|y l IH]; intros Hs; cbn [ins].
  - constructor; constructor.
  - inversion Hs as [|? ? H1 H2]; subst. destruct (x <? y) eqn:E1.
    + apply Nat.ltb_lt in E1. constructor; auto. constructor; auto. rewrite Forall_forall in *. intros z Hz. specialize (H2 z Hz). lia.
    + destruct (x =? y) eqn:E2; auto. apply Nat.ltb_ge in E1. apply Nat.eqb_neq in E2. constructor; auto.
      rewrite Forall_forall in *. intros z Hz. apply ins_in in Hz as [->|Hz]; [lia|auto].
Qed.
Lemma remN_In x y l : In x (remN y l) <-> In x l /\ x <> y.
Proof.
  unfold remN. rewrite filter_In, negb_true_iff. destruct (N.eqb x y) eqn:Ee.
  - apply N.eqb_eq in Ee. split; [intros [_ H]; discriminate|tauto].
  - apply N.eqb_neq in Ee. tauto.
Qed.

(* one signature per bit, each valid for the key at that position *)
Record vinv (sigok : N -> N -> N -> Prop) (d : N) (com : list N) (bits : list nat) (l : list (N * N)) : Prop := {
  vi_sorted : StronglySorted lt bits;
  vi_range : forall j, In j bits -> j < length com;
  vi_perm : Permutation (map (fun j => nth j com 0%N) bits) (map fst l);
  vi_ok : forall k s, In (k, s) l -> sigok d k s }.

Lemma put_inv sigok d com k s bits l : vinv sigok d com bits l -> sigok d k s ->
  exists l', vinv sigok d com (fst (put com k s bits (map snd l))) l' /\ snd (put com k s bits (map snd l)) = map snd l' /\
    (forall j, In j (fst (put com k s bits (map snd l))) <-> In j bits \/ last_index 0 com k = Some j).
Proof.
  intros H Hk. unfold put. destruct (last_index 0 com k) as [i|] eqn:Ei.
  - apply last_index_spec in Ei as [I1 I2]. rewrite Nat.sub_0_r in I2. destruct (has i bits) eqn:Eh.
    + exists l. cbn [fst snd]. split; auto. split; auto. intros j. apply has_In in Eh. split; auto. intros [Hj|Hj]; auto. injection Hj as <-. auto.
    + exists (l ++ [(k, s)]). cbn [fst snd]. assert (Hni : ~ In i bits). { intros Hi. apply has_In in Hi. congruence. }
      destruct H as [H1 H2 H3 H4]. split; [|split].
      * constructor.
        -- apply ins_sorted; auto.
        -- intros j Hj. apply (Permutation_in _ (ins_perm i bits Hni)) in Hj. destruct Hj as [<-|Hj]; [lia|auto].
        -- rewrite (Permutation_map _ (ins_perm i bits Hni)). cbn [map]. rewrite map_app. cbn [map fst].
           rewrite I2. rewrite H3. apply Permutation_cons_append.
        -- intros k' s' Hin. apply in_app_iff in Hin as [Hin|[Heq|[]]]; [auto|]. injection Heq as <- <-. auto.
      * rewrite map_app. auto.
      * intros j. split.
        -- intros Hj. apply (Permutation_in _ (ins_perm i bits Hni)) in Hj. destruct Hj as [<-|Hj]; auto.
        -- intros Hj. apply (Permutation_in _ (Permutation_sym (ins_perm i bits Hni))). destruct Hj as [Hj|Hj]; [right; auto|]. injection Hj as <-. left; auto.
  - exists l. cbn [fst snd]. split; auto. split; auto. intros j. split; auto. intros [Hj|Hj]; [auto|discriminate].
Qed.

(* the collector's invariant *)
Record cinv (E : eenv) (sigok : N -> N -> N -> Prop) (r : erec) (s : vst) : Prop := {
  ci_v : exists l, vinv sigok (ee_dig E r) (er_com r) (vs_bits s) l /\ vs_sigs s = map snd l;
  ci_reached : vs_reached s = true -> super_quorum r <= length (vs_bits s) }.

Lemma vstart_cinv E (sigok : N -> N -> N -> Prop) r me mysig :
  (memN me (er_com r) = true -> sigok (ee_dig E r) me mysig) -> cinv E sigok r (vstart r me mysig).
Proof.
  intros Hm. assert (H0 : vinv sigok (ee_dig E r) (er_com r) [] []).
  { constructor; simpl; try tauto; constructor. }
  unfold vstart. destruct (memN me (er_com r)) eqn:Em.
  - destruct (put_inv sigok (ee_dig E r) (er_com r) me mysig [] [] H0 (Hm eq_refl)) as (l & L1 & L2 & _). cbn [map] in L1, L2.
    destruct (put (er_com r) me mysig [] []) as [b g]. cbn [fst snd] in *. constructor; cbn [vs_bits vs_sigs vs_reached]; [eauto|discriminate].
  - constructor; cbn [vs_bits vs_sigs vs_reached]; [exists []; auto|discriminate].
Qed.
Lemma put_len com k s bits sigs : length bits <= length (fst (put com k s bits sigs)).
Proof.
  unfold put. destruct (last_index 0 com k); [|auto]. destruct (has n bits) eqn:Eh; [auto|]. cbn [fst].
  assert (Hni : ~ In n bits). { intros Hi. apply has_In in Hi. congruence. }
  rewrite (Permutation_length (ins_perm n bits Hni)). simpl. auto.
Qed.
Lemma vturn_cinv E sigok r s e s1 b : cinv E sigok r s -> vturn E r s e = (s1, b) ->
  (forall v, e = VVote v -> v_hash v = ee_dig E r -> sigok (v_hash v) (v_key v) (v_sig v)) -> cinv E sigok r s1.
Proof.
  intros [(l & V1 & V2) Hr] Ht Hv. destruct e as [v| |]; cbn [vturn] in Ht.
  - destruct (negb (v_epoch v =? er_epoch r)); [injection Ht as <- _; constructor; eauto|].
    destruct (N.eqb (v_hash v) (ee_dig E r)) eqn:Eh; cbn [andb negb] in Ht.
    + destruct (memN (v_key v) (vs_left s)); cbn [andb] in Ht; [|injection Ht as <- _; constructor; eauto].
      apply N.eqb_eq in Eh. specialize (Hv v eq_refl Eh). rewrite Eh in Hv.
      destruct (put_inv sigok (ee_dig E r) (er_com r) (v_key v) (v_sig v) (vs_bits s) l V1 Hv) as (l' & L1 & L2 & _).
      pose proof (put_len (er_com r) (v_key v) (v_sig v) (vs_bits s) (vs_sigs s)) as Hl. rewrite V2 in Ht, Hl.
      destruct (put (er_com r) (v_key v) (v_sig v) (vs_bits s) (map snd l)) as [b' g']. cbn [fst snd] in *.
      injection Ht as <- _. constructor; cbn [vs_bits vs_sigs vs_reached]; [eauto|].
      rewrite orb_true_iff, Nat.leb_le. intros [H|H]; [|auto]. specialize (Hr H). lia.
    + destruct (memN (v_key v) (vs_left s)); [|injection Ht as <- _; constructor; eauto].
      destruct (alt_bump (vs_alt s) (v_hash v)). injection Ht as <- _. constructor; cbn [vs_bits vs_sigs vs_reached]; eauto.
  - destruct (vs_reached s || (MAX_TIMEOUTS <? vs_tmo s)); injection Ht as <- _; constructor; cbn [vs_bits vs_sigs vs_reached]; eauto.
  - injection Ht as <- _. constructor; eauto.
Qed.
Lemma vloop_cinv E sigok r evs : forall s, cinv E sigok r s ->
  (forall v, In (VVote v) evs -> v_hash v = ee_dig E r -> sigok (v_hash v) (v_key v) (v_sig v)) -> cinv E sigok r (fst (vloop E r s evs)).
Proof.
  induction evs as [|e evs IH]; intros s Hi Hv; cbn [vloop]; [auto|].
  destruct (vturn E r s e) as [s1 b] eqn:Et. pose proof (vturn_cinv _ _ _ _ _ _ _ Hi Et) as H1.
  assert (cinv E sigok r s1). { apply H1. intros v ->. apply Hv. simpl; auto. }
  destruct b; [auto|]. apply IH; auto. intros v Hin. apply Hv. simpl; auto.
Qed.
Lemma vfinish_ok E sigok r s : agg_complete E sigok -> cinv E sigok r s -> vs_reached s = true ->
  exists c, vfinish E r s = Some c /\ verify_with_cert E r c = true.
Proof.
  intros Ha [(l & V1 & V2) Hr] Hq. specialize (Hr Hq). destruct V1 as [S1 S2 S3 S4].
  unfold vfinish. rewrite Hq, V2.
  assert (Hne : l <> []). { intros ->. cbn [map] in S3. apply Permutation_sym, Permutation_nil in S3. apply map_eq_nil in S3. rewrite S3 in Hr. unfold super_quorum in Hr. simpl in Hr. lia. }
  destruct (Ha (ee_dig E r) l Hne S4) as (a & A1 & A2). rewrite A1. cbv zeta.
  assert (Hv : verify_with_cert E r (mk_ecert (ee_dig E r) a (vs_bits s)) = true).
  { unfold verify_with_cert. cbn [ec_hash ec_bits ec_sig]. rewrite N.eqb_refl. cbn [negb].
    rewrite walk_full; auto.
    - destruct (length (vs_bits s) <? super_quorum r) eqn:El; [apply Nat.ltb_lt in El; lia|]. apply A2.
      rewrite <- S3. erewrite map_ext; [apply Permutation_refl|]. intros j. cbv beta. rewrite Nat.sub_0_r. auto.
    - intros j Hj. specialize (S2 j Hj). lia. }
  rewrite Hv. eauto.
Qed.

(* ---------- enough honest votes are enough ---------- *)
Definition is_tmo (e : vev) : bool := match e with VTimeout => true | _ => false end.
Definition tmos (evs : list vev) : nat := length (filter is_tmo evs).
Definition alt_sum (l : list (N * nat)) : nat := fold_right (fun p a => snd p + a) 0 l.

Lemma alt_bump_sum l d : alt_sum (fst (alt_bump l d)) = S (alt_sum l) /\ snd (alt_bump l d) <= alt_sum (fst (alt_bump l d)).
Proof.
  unfold alt_sum. induction l as [|[d' n] l IH]; cbn [alt_bump fst snd fold_right]; [lia|].
  destruct (N.eqb d' d); cbn [fst snd fold_right]; [lia|]. destruct (alt_bump l d) as [l' m]. cbn [fst snd fold_right] in *. lia.
Qed.

Record jinv (E : eenv) (r : erec) (H : list N) (s : vst) (rest : list vev) : Prop := {
  j_left : incl (vs_left s) (er_com r);
  j_bits : forall h, In h H -> (exists j, last_index 0 (er_com r) h = Some j /\ In j (vs_bits s)) \/
             (In h (vs_left s) /\ exists v, In (VVote v) rest /\ v_key v = h /\ v_epoch v = er_epoch r /\ v_hash v = ee_dig E r);
  j_alt : exists A, NoDup A /\ incl A (er_com r) /\ (forall k, In k A -> ~ In k H /\ ~ In k (vs_left s)) /\ alt_sum (vs_alt s) = length A;
  j_tmo : vs_tmo s + tmos rest <= 25;
  j_reach : super_quorum r <= length (vs_bits s) -> vs_reached s = true }.

Lemma put_bits com k s bits sigs j :
  In j (fst (put com k s bits sigs)) <-> In j bits \/ last_index 0 com k = Some j.
Proof.
  unfold put. destruct (last_index 0 com k) as [i|]; [|split; auto; intros [Hj|Hj]; [auto|discriminate]].
  destruct (has i bits) eqn:Eh; cbn [fst].
  - apply has_In in Eh. split; auto. intros [Hj|Hj]; auto. injection Hj as <-. auto.
  - assert (Hni : ~ In i bits). { intros Hi. apply has_In in Hi. congruence. }
    split; intros Hj.
    + apply (Permutation_in _ (ins_perm i bits Hni)) in Hj. destruct Hj as [<-|Hj]; auto.
    + apply (Permutation_in _ (Permutation_sym (ins_perm i bits Hni))). destruct Hj as [Hj|Hj]; [right; auto|]. injection Hj as <-. left; auto.
Qed.

Lemma covered_len com (H : list N) bits : NoDup H ->
  (forall h, In h H -> exists j, last_index 0 com h = Some j /\ In j bits) -> length H <= length bits.
Proof.
  intros Hn Hc. rewrite <- (map_length (fun j => nth j com 0%N) bits). apply NoDup_incl_length; auto.
  intros h Hh. destruct (Hc h Hh) as (j & J1 & J2). apply last_index_spec in J1 as [_ J3]. rewrite Nat.sub_0_r in J3.
  rewrite <- J3. apply (in_map (fun j => nth j com 0%N)). auto.
Qed.

Lemma vloop_reaches E r H : NoDup (er_com r) -> NoDup H -> incl H (er_com r) -> super_quorum r <= length H ->
  forall evs s, jinv E r H s evs -> ~ In VClosed evs ->
  (forall v, In (VVote v) evs -> In (v_key v) H -> v_epoch v = er_epoch r -> v_hash v = ee_dig E r) ->
  vs_reached (fst (vloop E r s evs)) = true.
Proof.
  intros Hc Hn Hi Hq. induction evs as [|e evs IH]; intros s J Hcl Hh; cbn [vloop].
  - destruct J as [_ Jb _ _ Jr]. cbn [fst]. apply Jr. etransitivity; [apply Hq|]. apply (covered_len (er_com r)); auto.
    intros h Hin. destruct (Jb h Hin) as [Hb|(_ & v & [] & _)]. auto.
  - assert (Hcl' : ~ In VClosed evs) by (intros Hx; apply Hcl; simpl; auto).
    assert (Hh' : forall v, In (VVote v) evs -> In (v_key v) H -> v_epoch v = er_epoch r -> v_hash v = ee_dig E r) by (intros v Hv; apply Hh; simpl; auto).
    destruct e as [v| |]; cbn [vturn].
    + destruct (v_epoch v =? er_epoch r) eqn:Ee; cbn [negb].
      2:{ apply IH; auto. destruct J as [J1 J2 J3 J4 J5]. constructor; auto.
          intros h Hin. destruct (J2 h Hin) as [Hb|(Hl & v' & Hv & K & Ep & Hd)]; auto. right. split; auto. exists v'. split; [|auto].
          destruct Hv as [Hv|Hv]; auto. injection Hv as ->. apply Nat.eqb_neq in Ee. congruence. }
      apply Nat.eqb_eq in Ee. destruct (memN (v_key v) (vs_left s)) eqn:Em.
      2:{ rewrite !andb_false_r. apply IH; auto. destruct J as [J1 J2 J3 J4 J5]. constructor; auto.
          intros h Hin. destruct (J2 h Hin) as [Hb|(Hl & v' & Hv & K & Ep & Hd)]; auto. right. split; auto. exists v'. split; [|auto].
          destruct Hv as [Hv|Hv]; auto. injection Hv as ->. apply memN_nIn in Em. congruence. }
      apply memN_In in Em. destruct (N.eqb (v_hash v) (ee_dig E r)) eqn:Ed; cbn [andb negb].
      * pose proof (put_bits (er_com r) (v_key v) (v_sig v) (vs_bits s) (vs_sigs s)) as Hpb.
        pose proof (put_len (er_com r) (v_key v) (v_sig v) (vs_bits s) (vs_sigs s)) as Hpl.
        destruct (put (er_com r) (v_key v) (v_sig v) (vs_bits s) (vs_sigs s)) as [b g]. cbn [fst] in Hpb, Hpl.
        destruct (length (er_com r) <=? length b) eqn:Efull.
        -- cbn [fst vs_reached]. apply Nat.leb_le in Efull. apply orb_true_iff. right. apply Nat.leb_le.
           pose proof (NoDup_incl_length Hn Hi). lia.
        -- apply IH; auto. destruct J as [J1 J2 J3 J4 J5]. constructor; cbn [vs_left vs_bits vs_sigs vs_reached vs_tmo vs_alt]; auto.
           ++ intros x Hx. apply remN_In in Hx as [Hx _]. auto.
           ++ intros h Hin. destruct (N.eq_dec h (v_key v)) as [->|Hne].
              ** left. destruct (last_index_some (er_com r) (v_key v) 0 (J1 _ Em)) as [j Hj]. exists j. split; auto. apply Hpb. auto.
              ** destruct (J2 h Hin) as [(j & K1 & K2)|(Hl & v' & Hv & K & Ep & Hd)].
                 { left. exists j. split; auto. apply Hpb. auto. }
                 right. split; [apply remN_In; auto|]. exists v'. split; [|auto]. destruct Hv as [Hv|Hv]; auto. injection Hv as ->. congruence.
           ++ destruct J3 as (A & A1 & A2 & A3 & A4). exists A. split; auto. split; auto. split; auto.
              intros k Hk. destruct (A3 k Hk) as [B1 B2]. split; auto. intros Hr. apply remN_In in Hr as [Hr _]. auto.
           ++ intros Hlen. apply orb_true_iff. right. apply Nat.leb_le. auto.
      * apply N.eqb_neq in Ed.
        assert (HnH : ~ In (v_key v) H). { intros HH. apply Ed. apply Hh; simpl; auto. }
        destruct J as [J1 J2 J3 J4 J5]. destruct J3 as (A & A1 & A2 & A3 & A4).
        assert (HA : NoDup (v_key v :: A)). { constructor; auto. intros Hin. destruct (A3 _ Hin) as [_ B]. auto. }
        assert (HAH : length (v_key v :: A) + length H <= length (er_com r)).
        { rewrite <- app_length. apply NoDup_incl_length.
          - apply NoDup_app_intro; auto. intros k Hk1 Hk2. destruct Hk1 as [<-|Hk1]; [auto|]. destruct (A3 _ Hk1) as [B _]. auto.
          - intros k Hk. apply in_app_iff in Hk as [Hk|Hk]; [|auto]. destruct Hk as [<-|Hk]; auto. }
        pose proof (alt_bump_sum (vs_alt s) (v_hash v)) as [Hb1 Hb2]. destruct (alt_bump (vs_alt s) (v_hash v)) as [a n]. cbn [fst snd] in *.
        destruct (super_quorum r <=? n) eqn:Eq.
        { exfalso. apply Nat.leb_le in Eq. simpl in HAH. unfold super_quorum in *.
          pose proof (Nat.div_mod (length (er_com r) * 2) 3). pose proof (Nat.mod_upper_bound (length (er_com r) * 2) 3). lia. }
        apply IH; auto. constructor; cbn [vs_left vs_bits vs_sigs vs_reached vs_tmo vs_alt]; auto.
        -- intros x Hx. apply remN_In in Hx as [Hx _]. auto.
        -- intros h Hin. destruct (J2 h Hin) as [Hb|(Hl & v' & Hv & K & Ep & Hd)]; [auto|].
           right. split; [apply remN_In; split; auto; intros ->; auto|]. exists v'. split; [|auto].
           destruct Hv as [Hv|Hv]; auto. injection Hv as ->. congruence.
        -- exists (v_key v :: A). split; auto. split; [intros k [<-|Hk]; auto|]. split; [|simpl; lia].
           intros k [<-|Hk]; [split; auto; intros Hr; apply remN_In in Hr as [_ Hr]; auto|].
           destruct (A3 k Hk) as [B1 B2]. split; auto. intros Hr. apply remN_In in Hr as [Hr _]. auto.
    + destruct J as [J1 J2 J3 J4 J5]. unfold tmos in J4. cbn [filter is_tmo length] in J4. fold (tmos evs) in J4.
      destruct (vs_reached s) eqn:Er; cbn [orb]; [cbn [fst]; auto|].
      destruct (MAX_TIMEOUTS <? vs_tmo s) eqn:Et; [apply Nat.ltb_lt in Et; unfold MAX_TIMEOUTS in Et; lia|].
      apply IH; auto. constructor; cbn [vs_left vs_bits vs_sigs vs_reached vs_tmo vs_alt]; auto; [|lia].
      intros h Hin. destruct (J2 h Hin) as [Hb|(Hl & v' & Hv & K)]; auto. right. split; auto. exists v'. split; [|auto].
      destruct Hv as [Hv|Hv]; [discriminate|auto].
    + exfalso. apply Hcl. simpl; auto.
Qed.

Lemma vstart_jinv E r H me mysig evs : NoDup (er_com r) -> incl H (er_com r) -> 2 <= length (er_com r) -> tmos evs <= 25 ->
  (forall h, In h H -> h <> me -> exists v, In (VVote v) evs /\ v_key v = h /\ v_epoch v = er_epoch r /\ v_hash v = ee_dig E r) ->
  jinv E r H (vstart r me mysig) evs.
Proof.
  intros Hc Hi H2 Ht Hv. unfold vstart. destruct (memN me (er_com r)) eqn:Em.
  - pose proof (put_bits (er_com r) me mysig [] []) as Hpb. unfold put in *. cbn [has existsb] in *.
    apply memN_In in Em. destruct (last_index_some (er_com r) me 0 Em) as [i Hli]. rewrite Hli in *. cbn [fst ins] in *.
    constructor; cbn [vs_left vs_bits vs_sigs vs_reached vs_tmo vs_alt length]; auto.
    + intros x Hx. apply remN_In in Hx as [Hx _]. auto.
    + intros h Hin. destruct (N.eq_dec h me) as [->|Hne]; [left; exists i; simpl; auto|].
      right. split; [apply remN_In; auto|auto].
    + exists []. simpl. split; [constructor|]. split; [intros x []|]. split; [intros k []|auto].
    + unfold super_quorum. intros Hle. exfalso. pose proof (Nat.div_le_mono 4 (length (er_com r) * 2) 3 ltac:(lia) ltac:(lia)) as Hd. change (4/3) with 1 in Hd. lia.
  - constructor; cbn [vs_left vs_bits vs_sigs vs_reached vs_tmo vs_alt length]; auto.
    + apply incl_refl.
    + intros h Hin. right. split; auto. apply Hv; auto. intros ->. apply memN_nIn in Em. auto.
    + exists []. simpl. split; [constructor|]. split; [intros x []|]. split; [intros k []|auto].
    + unfold super_quorum. lia.
Qed.
