From Verif Require Import Util Types CommitteeModel CommitteeProofs CertModel.
Local Open Scope N_scope.

Arguments N.add : simpl never.
Arguments sumN : simpl never.
Arguments group_power : simpl never.

(* ---------- bitmap construction and decoding ---------- *)
Lemma fill_bitmap_split i auths votes bits sigs rest w :
  fill_bitmap i auths votes = (bits, sigs, rest, w) ->
  votes = sigs ++ rest /\ w = N.of_nat (length sigs) /\ length bits = length sigs /\
  (forall k, In k (map fst sigs) -> In k (bm_keys auths)).
Proof.
  revert i votes bits sigs rest w; induction auths as [|[k a] auths IH]; intros i votes bits sigs rest w E.
  - cbn in E. inversion E; subst. cbn. repeat split; auto.
  - cbn in E. destruct votes as [|[vk vs] votes].
    + apply IH in E as (E1 & E2 & E3 & E4). repeat split; auto. intros; right; auto.
    + destruct (N.eqb_spec k vk).
      * destruct (fill_bitmap (i + 1) auths votes) as [[[b s] r] w'] eqn:Er.
        inversion E; subst. apply IH in Er as (E1 & E2 & E3 & E4). cbn. subst.
        repeat split; auto; [unfold EQUAL_VOTING_POWER; lia|].
        intros x [<-|Hx]; [left; auto|right; auto].
      * apply IH in E as (E1 & E2 & E3 & E4). repeat split; auto. intros; right; auto.
Qed.

Lemma fill_bitmap_all i auths votes bits sigs rest w :
  bm_sorted auths -> bm_sorted votes -> (forall k, In k (bm_keys votes) -> In k (bm_keys auths)) ->
  fill_bitmap i auths votes = (bits, sigs, rest, w) -> rest = [] /\ sigs = votes.
Proof.
  unfold bm_sorted.
  revert i votes bits sigs rest w; induction auths as [|[k a] auths IH]; intros i votes bits sigs rest w Hs Hv Hin E.
  - cbn in E. inversion E; subst. destruct rest as [|[x y] r]; auto. exfalso. apply (Hin x). left; auto.
  - cbn in E. cbn in Hs. inversion Hs as [|? ? Hs' Hf]; subst. rewrite Forall_forall in Hf.
    destruct votes as [|[vk vs] votes].
    + apply IH in E; auto. intros x [].
    + cbn in Hv. inversion Hv as [|? ? Hv' Hfv]; subst. rewrite Forall_forall in Hfv.
      destruct (N.eqb_spec k vk).
      * destruct (fill_bitmap (i + 1) auths votes) as [[[b s] r] w'] eqn:Er.
        inversion E; subst. apply IH in Er; auto.
        -- destruct Er; subst; auto.
        -- intros x Hx. specialize (Hfv _ Hx). destruct (Hin x (or_intror Hx)); auto. cbn in *. lia.
      * apply IH in E; auto.
        assert (Hvk : In vk (bm_keys auths)).
        { destruct (Hin vk (or_introl eq_refl)); auto. cbn in *. congruence. }
        intros x [<-|Hx]; auto. specialize (Hfv _ Hx). specialize (Hf _ Hvk).
        destruct (Hin x (or_intror Hx)); auto. cbn in *. lia.
Qed.

Lemma fill_bitmap_bits i auths votes bits sigs rest w :
  fill_bitmap i auths votes = (bits, sigs, rest, w) ->
  StronglySorted N.lt bits /\ (forall j, In j bits -> i <= j /\ j < i + N.of_nat (length auths)).
Proof.
  revert i votes bits sigs rest w; induction auths as [|[k a] auths IH]; intros i votes bits sigs rest w E.
  - cbn in E. inversion E; subst. split; [constructor|simpl; tauto].
  - cbn in E. destruct votes as [|[vk vs] votes].
    + apply IH in E as [E1 E2]. split; auto. intros j Hj; apply E2 in Hj. cbn [length]; lia.
    + destruct (N.eqb_spec k vk).
      * destruct (fill_bitmap (i + 1) auths votes) as [[[b s] r] w'] eqn:Er.
        inversion E; subst. apply IH in Er as [E1 E2]. split.
        -- constructor; auto. apply Forall_forall. intros j Hj; apply E2 in Hj. lia.
        -- intros j [<-|Hj]; [cbn [length]; lia|]. apply E2 in Hj. cbn [length]; lia.
      * apply IH in E as [E1 E2]. split; auto. intros j Hj; apply E2 in Hj. cbn [length]; lia.
Qed.

Lemma walk_skip i keys idx : (match idx with j :: _ => j <> i | [] => True end) ->
  forall k, signed_by_walk i (k :: keys) idx = signed_by_walk (i + 1) keys idx.
Proof. intros H k. cbn. destruct idx as [|j idx]; auto. destruct (N.eqb_spec j i); auto. tauto. Qed.

(* decoding the bitmap built from votes returns the voters *)
Lemma fill_then_signed_by i auths votes bits sigs rest w :
  fill_bitmap i auths votes = (bits, sigs, rest, w) ->
  signed_by_walk i (bm_keys auths) bits = (N.of_nat (length sigs), map fst sigs).
Proof.
  revert i votes bits sigs rest w; induction auths as [|[k a] auths IH]; intros i votes bits sigs rest w E.
  - cbn in E. inversion E; subst. reflexivity.
  - pose proof (fill_bitmap_bits _ _ _ _ _ _ _ E) as [_ Hb]. cbn in E.
    assert (Skip : forall b s r w' v, fill_bitmap (i + 1) auths v = (b, s, r, w') ->
              signed_by_walk i (bm_keys ((k, a) :: auths)) b = (N.of_nat (length s), map fst s)).
    { intros b s r w' v Er. change (bm_keys ((k, a) :: auths)) with (k :: bm_keys auths).
      rewrite walk_skip; [eapply IH; eauto|].
      destruct b as [|j b]; auto. apply fill_bitmap_bits in Er as [_ Er].
      specialize (Er j (or_introl eq_refl)). lia. }
    destruct votes as [|[vk vs] votes]; [eapply Skip; eauto|].
    destruct (N.eqb_spec k vk); [|eapply Skip; eauto].
    destruct (fill_bitmap (i + 1) auths votes) as [[[b s] r] w'] eqn:Er.
    inversion E; subst. cbn [bm_keys map signed_by_walk fst]. rewrite N.eqb_refl.
    apply IH in Er. unfold bm_keys in Er. rewrite Er. cbn [length map fst]. f_equal. lia.
Qed.

(* for ANY bitmap: weight = number of keys, keys form a duplicate-free sublist of the committee's keys *)
Inductive sublist {A} : list A -> list A -> Prop :=
| sub_nil : sublist [] []
| sub_skip x l1 l2 : sublist l1 l2 -> sublist l1 (x :: l2)
| sub_keep x l1 l2 : sublist l1 l2 -> sublist (x :: l1) (x :: l2).

Lemma sublist_In {A} (l1 l2 : list A) x : sublist l1 l2 -> In x l1 -> In x l2.
Proof. induction 1; simpl; intuition. Qed.
Lemma sublist_NoDup {A} (l1 l2 : list A) : sublist l1 l2 -> NoDup l2 -> NoDup l1.
Proof.
  induction 1 as [|x l1 l2 H IH|x l1 l2 H IH]; intros Hn; auto; inversion Hn; subst; auto.
  constructor; auto. intro Hin. eapply sublist_In in Hin; eauto.
Qed.

Lemma walk_any i keys idx w pks :
  signed_by_walk i keys idx = (w, pks) -> w = N.of_nat (length pks) /\ sublist pks keys.
Proof.
  revert i idx w pks; induction keys as [|k keys IH]; intros i idx w pks E.
  - cbn in E. inversion E; subst. split; [reflexivity|constructor].
  - cbn in E. destruct idx as [|j idx].
    + apply IH in E as [E1 E2]. split; auto. apply sub_skip; auto.
    + destruct (N.eqb_spec j i).
      * destruct (signed_by_walk (i + 1) keys idx) as [w' p'] eqn:Er. inversion E; subst.
        apply IH in Er as [E1 E2]. split; [cbn [length]; lia|]. apply sub_keep; auto.
      * apply IH in E as [E1 E2]. split; auto. apply sub_skip; auto.
Qed.

(* exact decoding for a genuine (strictly increasing) bitmap: position j selects the j-th key *)
Lemma walk_exact i keys idx :
  StronglySorted N.lt idx -> (forall j, In j idx -> i <= j) ->
  snd (signed_by_walk i keys idx) =
  flat_map (fun j => match nth_error keys (N.to_nat (j - i)) with Some k => [k] | None => [] end) idx.
Proof.
  revert i idx; induction keys as [|k keys IH]; intros i idx Hs Hge.
  - cbn. induction idx as [|j idx IHi]; auto. cbn. inversion Hs; subst.
    destruct (N.to_nat (j - i)); cbn; (rewrite <- IHi; auto; intros; apply Hge; right; auto).
  - assert (Shift : forall l, (forall j, In j l -> i + 1 <= j) ->
      flat_map (fun j => match nth_error (k :: keys) (N.to_nat (j - i)) with Some k0 => [k0] | None => [] end) l
      = flat_map (fun j => match nth_error keys (N.to_nat (j - (i + 1))) with Some k0 => [k0] | None => [] end) l).
    { intros l Hl. induction l as [|j l IHl]; auto. cbn [flat_map]. rewrite IHl by (intros; apply Hl; right; auto).
      f_equal. replace (N.to_nat (j - i)) with (S (N.to_nat (j - (i + 1)))); auto.
      specialize (Hl j (or_introl eq_refl)). lia. }
    cbn [signed_by_walk]. destruct idx as [|j idx].
    + rewrite IH; [reflexivity|constructor|simpl; tauto].
    + inversion Hs as [|? ? Hs' Hf]; subst. rewrite Forall_forall in Hf.
      pose proof (Hge j (or_introl eq_refl)).
      destruct (N.eqb_spec j i).
      * subst j. destruct (signed_by_walk (i + 1) keys idx) as [w' p'] eqn:Er. cbn [snd flat_map].
        replace (N.to_nat (i - i)) with 0%nat by lia. cbn [nth_error app]. f_equal.
        rewrite Shift by (intros j Hj; specialize (Hf _ Hj); lia).
        rewrite <- IH; [rewrite Er; auto|auto|intros j Hj; specialize (Hf _ Hj); lia].
      * rewrite IH; auto.
        -- symmetry. apply Shift. intros j' [<-|Hj']; [lia|]. specialize (Hf _ Hj'). lia.
        -- intros j' [<-|Hj']; [lia|]. specialize (Hf _ Hj'). lia.
Qed.

(* ---------- votes by key ---------- *)
Lemma cm_authority_In c id a : committee_wf c -> cm_authority c id = Some a ->
  In id (member_ids c) /\ a_id a = id /\ In (a_key a) (bls_keys c).
Proof.
  intros H E. unfold cm_authority in E. pose proof E as E'.
  apply bm_lookup_In in E; [|apply wf_by_id_sorted; auto].
  split; [|split].
  - apply is_authority_In; auto. unfold is_authority. rewrite E'. auto.
  - eapply wf_id; eauto.
  - assert (Hin : In a (map snd (cm_auths c))).
    { eapply Permutation_in; [apply wf_perm; auto|]. apply (in_map snd) in E; auto. }
    apply in_map_iff in Hin as [[k b] [Eb Hb]]. cbn in Eb; subst b.
    rewrite (wf_key _ H _ _ Hb). apply (in_map fst) in Hb. exact Hb.
Qed.

Lemma key_id_inj c id1 a1 id2 a2 :
  committee_wf c -> cm_authority c id1 = Some a1 -> cm_authority c id2 = Some a2 ->
  a_key a1 = a_key a2 -> id1 = id2.
Proof.
  intros H E1 E2 Ek.
  assert (K : forall id a, cm_authority c id = Some a -> In (a_key a, a) (cm_auths c)).
  { intros id a E. unfold cm_authority in E. apply bm_lookup_In in E; [|apply wf_by_id_sorted; auto].
    assert (Hin : In a (map snd (cm_auths c))).
    { eapply Permutation_in; [apply wf_perm; auto|]. apply (in_map snd) in E; auto. }
    apply in_map_iff in Hin as [[k b] [Eb Hb]]. cbn in Eb; subst b.
    rewrite (wf_key _ H _ _ Hb). auto. }
  pose proof (K _ _ E1) as K1. pose proof (K _ _ E2) as K2. rewrite Ek in K1.
  assert (S1 : bm_sorted (cm_auths c)) by (apply wf_auths_sorted; auto).
  pose proof (proj2 (bm_lookup_In (a_key a2) a1 _ S1) K1) as L1.
  pose proof (proj2 (bm_lookup_In (a_key a2) a2 _ S1) K2) as L2.
  assert (a1 = a2) by congruence. subst a2.
  pose proof (proj1 (proj2 (cm_authority_In _ _ _ H E1))).
  pose proof (proj1 (proj2 (cm_authority_In _ _ _ H E2))). congruence.
Qed.

Lemma bm_of_list_perm {V} (l : list (N * V)) :
  NoDup (map fst l) -> Permutation (bm_of_list l) l.
Proof.
  unfold bm_of_list. intros H.
  assert (G : forall m, (forall k, In k (map fst l) -> ~ In k (bm_keys m)) ->
     Permutation (fold_left (fun m kv => bm_insert (fst kv) (snd kv) m) l m) (l ++ m)).
  { induction l as [|[k v] l IH]; intros m Hm; cbn; auto.
    inversion H; subst. rewrite IH; auto.
    - rewrite bm_insert_perm by (apply Hm; left; auto). symmetry. apply Permutation_middle.
    - intros x Hx Hin. apply bm_insert_keys in Hin as [->|Hin]; auto. eapply Hm; [right; eauto|auto]. }
  rewrite G; [rewrite app_nil_r; auto|]. simpl; auto.
Qed.

(* member votes with distinct authors: the keyed map is a permutation of them *)
Definition keyed (c : committee) (votes : list (N * N)) : list (N * N) :=
  flat_map (fun '(id, sig) => match cm_authority c id with Some a => [(a_key a, sig)] | None => [] end) votes.

Lemma keyed_length c votes :
  (forall v, In v votes -> exists a, cm_authority c (fst v) = Some a) -> length (keyed c votes) = length votes.
Proof.
  induction votes as [|[id sig] votes IH]; intros H; auto. cbn.
  destruct (H (id, sig) (or_introl eq_refl)) as [a Ea]. cbn in Ea. rewrite Ea. cbn. f_equal.
  apply IH. intros; apply H; right; auto.
Qed.

Lemma keyed_In c votes k s :
  In (k, s) (keyed c votes) <-> exists id a, In (id, s) votes /\ cm_authority c id = Some a /\ a_key a = k.
Proof.
  unfold keyed. rewrite in_flat_map. split.
  - intros [[id sig] [H1 H2]]. destruct (cm_authority c id) eqn:E; [|destruct H2].
    destruct H2 as [H2|[]]. inversion H2; subst. eauto.
  - intros (id & a & H1 & H2 & H3). exists (id, s). split; auto. rewrite H2. left. congruence.
Qed.

Lemma keyed_NoDup c votes :
  committee_wf c -> NoDup (map fst votes) -> NoDup (map fst (keyed c votes)).
Proof.
  intros H. induction votes as [|[id sig] votes IH]; intros Hn; [constructor|].
  inversion Hn; subst. cbn. destruct (cm_authority c id) as [a|] eqn:E; cbn; auto.
  constructor; auto. intro Hin. apply in_map_iff in Hin as [[k s] [Ek Hin]]. cbn in Ek. subst k.
  apply keyed_In in Hin as (id' & a' & Hv & Ea & Ekey).
  assert (id' = id) by (eapply key_id_inj; eauto). subst. apply H2. apply (in_map fst) in Hv. auto.
Qed.

(* ---------- C04: round trip ---------- *)
Section Agg.
Variable aggregate : list N -> option N.
Notation new_internal := (cert_new_internal aggregate).

Lemma new_internal_ok dsig c h votes chk ct :
  committee_wf c -> bm_sorted votes ->
  new_internal dsig c h votes chk = Ok ct ->
  c_header ct = h /\
  (forall k, In k (bm_keys votes) -> In k (bls_keys c)) /\
  signed_by ct (bls_keys c) = (N.of_nat (length votes), bm_keys votes) /\
  (chk = true -> cm_quorum c <= N.of_nat (length votes)) /\
  (match votes with [] => Some dsig | _ => aggregate (map snd votes) end) = aggregated_signature (c_state ct) /\
  (chk = true -> exists sig, c_state ct = Unverified sig) /\
  StronglySorted N.lt (c_signers ct).
Proof.
  intros Hwf Hs E. unfold cert_new_internal in E.
  destruct (fill_bitmap 0 (cm_auths c) votes) as [[[bits sigs] rest] w] eqn:Ef.
  destruct rest; [|discriminate].
  pose proof (fill_bitmap_split _ _ _ _ _ _ _ Ef) as (E1 & E2 & E3 & E4).
  rewrite app_nil_r in E1. subst sigs.
  destruct (chk && negb (cm_quorum c <=? w)) eqn:Ec; [discriminate|].
  destruct (match votes with [] => Some dsig | _ => aggregate (map snd votes) end) as [agg|] eqn:Ea; [|discriminate].
  inversion E; subst ct; clear E. cbn.
  repeat split; auto.
  - unfold signed_by; cbn. eapply fill_then_signed_by; eauto.
  - intros ->. cbn in Ec. lia.
  - destruct chk; auto.
  - intros ->; eauto.
  - apply fill_bitmap_bits in Ef; tauto.
Qed.

Lemma new_internal_total dsig c h votes :
  committee_wf c -> bm_sorted votes -> (forall k, In k (bm_keys votes) -> In k (bls_keys c)) ->
  cm_quorum c <= N.of_nat (length votes) ->
  new_internal dsig c h votes true =
  match aggregate (map snd votes) with
  | Some agg => Ok (mkCert h (Unverified agg) (fst (fst (fst (fill_bitmap 0 (cm_auths c) votes)))))
  | None => Err InvalidSignature
  end.
Proof.
  intros Hwf Hs Hin Hq. unfold cert_new_internal.
  destruct (fill_bitmap 0 (cm_auths c) votes) as [[[bits sigs] rest] w] eqn:Ef.
  pose proof (fill_bitmap_split _ _ _ _ _ _ _ Ef) as (E1 & E2 & E3 & E4).
  apply fill_bitmap_all in Ef as [-> ->]; auto; [|apply wf_auths_sorted; auto].
  subst w. replace (cm_quorum c <=? N.of_nat (length votes)) with true by lia. cbn.
  destruct votes as [|v votes].
  - cbn in Hq. rewrite (wf_quorum _ Hwf) in Hq. lia.
  - destruct (aggregate (map snd (v :: votes))); auto.
Qed.

Lemma new_internal_unknown dsig c h votes chk :
  committee_wf c -> bm_sorted votes -> (exists k, In k (bm_keys votes) /\ ~ In k (bls_keys c)) ->
  new_internal dsig c h votes chk = Err UnknownAuthority.
Proof.
  intros Hwf Hs [k [Hk Hn]]. unfold cert_new_internal.
  destruct (fill_bitmap 0 (cm_auths c) votes) as [[[bits sigs] rest] w] eqn:Ef.
  pose proof (fill_bitmap_split _ _ _ _ _ _ _ Ef) as (E1 & E2 & E3 & E4).
  destruct rest; auto. exfalso. rewrite app_nil_r in E1. subst. apply Hn. apply E4. auto.
Qed.

End Agg.

(* ---------- C03: the vote aggregator ---------- *)
Section Good.
Variable verify : N -> N -> N -> bool.
(* a vote is good for header h: right digest, committee member, verifying signature *)
Definition good_vote (c : committee) (h : header) (v : vote) : bool :=
  (v_digest v =? h_digest h) &&
  match cm_authority c (v_author v) with Some a => verify (v_digest v) (v_sig v) (a_key a) | None => false end.
(* first vote of each author, in order *)
Fixpoint first_votes (seen : list N) (vs : list vote) : list vote :=
  match vs with
  | [] => []
  | v :: vs' => if memN (v_author v) seen then first_votes seen vs' else v :: first_votes (v_author v :: seen) vs'
  end.
Definition accepted_votes c h vs := filter (good_vote c h) (first_votes [] vs).

Lemma memN_iff_ext x l1 l2 : (In x l1 <-> In x l2) -> memN x l1 = memN x l2.
Proof.
  intros H. destruct (memN x l1) eqn:E.
  - symmetry. apply memN_In, H, memN_In; auto.
  - symmetry. apply memN_nIn. rewrite <- H. apply memN_nIn; auto.
Qed.

Lemma first_votes_ext s1 s2 vs : (forall x, In x s1 <-> In x s2) -> first_votes s1 vs = first_votes s2 vs.
Proof.
  revert s1 s2; induction vs as [|v vs IH]; intros s1 s2 H; auto. cbn.
  rewrite (memN_iff_ext _ s1 s2) by auto. destruct (memN (v_author v) s2); auto.
  f_equal. apply IH. intros x; cbn; rewrite H; tauto.
Qed.

Lemma first_votes_app s vs ws :
  first_votes s (vs ++ ws) = first_votes s vs ++ first_votes (map v_author vs ++ s) ws.
Proof.
  revert s; induction vs as [|v vs IH]; intros s; auto. cbn.
  destruct (memN (v_author v) s) eqn:E; cbn.
  - rewrite IH. f_equal. apply first_votes_ext. intros x; cbn. apply memN_In in E.
    rewrite !in_app_iff. intuition; subst; auto.
  - f_equal. rewrite IH. f_equal. apply first_votes_ext. intros x; cbn.
    rewrite !in_app_iff. cbn. intuition.
Qed.

Lemma first_votes_In s vs v : In v (first_votes s vs) -> In v vs /\ ~ In (v_author v) s.
Proof.
  revert s; induction vs as [|w vs IH]; intros s; cbn; [tauto|].
  destruct (memN (v_author w) s) eqn:E; cbn.
  - intros H; apply IH in H; tauto.
  - apply memN_nIn in E. intros [<-|H]; auto. apply IH in H as [H1 H2]. cbn in H2. tauto.
Qed.

Lemma first_votes_NoDup s vs : NoDup (map v_author (first_votes s vs)).
Proof.
  revert s; induction vs as [|w vs IH]; intros s; cbn; [constructor|].
  destruct (memN (v_author w) s) eqn:E; cbn; auto. constructor; auto.
  intro H. apply in_map_iff in H as [v [Ev Hv]]. apply first_votes_In in Hv as [_ Hv].
  apply Hv. left. auto.
Qed.

Lemma NoDup_map_filter {A B} (f : A -> B) p l : NoDup (map f l) -> NoDup (map f (filter p l)).
Proof.
  induction l as [|x l IH]; cbn; intros H; [constructor|]. inversion H; subst.
  destruct (p x); cbn; auto. constructor; auto. intro Hin. apply H2.
  apply in_map_iff in Hin as [y [Ey Hy]]. apply filter_In in Hy as [Hy _]. rewrite <- Ey. apply in_map; auto.
Qed.

Lemma accepted_NoDup c h vs : NoDup (map v_author (accepted_votes c h vs)).
Proof. apply NoDup_map_filter, first_votes_NoDup. Qed.

Lemma accepted_good c h vs v : In v (accepted_votes c h vs) ->
  In v vs /\ v_digest v = h_digest h /\
  exists a, cm_authority c (v_author v) = Some a /\ verify (h_digest h) (v_sig v) (a_key a) = true.
Proof.
  intros H. apply filter_In in H as [H1 H2]. apply first_votes_In in H1 as [H1 _].
  unfold good_vote in H2. apply andb_prop in H2 as [H2 H3]. apply N.eqb_eq in H2.
  split; auto. split; auto. destruct (cm_authority c (v_author v)); [|discriminate].
  rewrite H2 in H3. eauto.
Qed.

Definition pairs (l : list vote) : list (N * N) := map (fun v => (v_author v, v_sig v)) l.

Lemma pairs_fst l : map fst (pairs l) = map v_author l.
Proof. unfold pairs. rewrite map_map. auto. Qed.

Definition va_inv (c : committee) (h : header) (vs : list vote) (s : votes_agg) : Prop :=
  va_votes s = pairs (accepted_votes c h vs) /\
  va_weight s = N.of_nat (length (accepted_votes c h vs)) /\
  (forall x, In x (va_seen s) <-> In x (map v_author vs)).

Lemma accepted_snoc c h vs v :
  accepted_votes c h (vs ++ [v]) =
  accepted_votes c h vs ++
  (if memN (v_author v) (map v_author vs) then [] else if good_vote c h v then [v] else []).
Proof.
  unfold accepted_votes. rewrite first_votes_app, filter_app. f_equal. cbn.
  rewrite app_nil_r. destruct (memN (v_author v) (map v_author vs)); auto.
Qed.

End Good.

Section Run.
Variable aggregate : list N -> option N.
Variable verify : N -> N -> N -> bool.
Notation append := (votes_append aggregate verify).
Notation accepted_votes := (accepted_votes verify).
Notation good_vote := (good_vote verify).
Notation va_inv := (va_inv verify).
Notation run := (votes_run aggregate verify).

(* the exact outcome of one append, given the history *)
Definition append_spec dsig (c : committee) (h : header) (vs : list vote) (v : vote)
  (o : result (option cert) dag_err) : Prop :=
  if memN (v_author v) (map v_author vs) then o = Err AuthorityReuse
  else if negb (v_digest v =? h_digest h) then o = Err InvalidHeaderDigest
  else match cm_authority c (v_author v) with
  | None => o = Err UnknownAuthority
  | Some a =>
    if negb (verify (v_digest v) (v_sig v) (a_key a)) then o = Err InvalidSignature
    else
      let acc := accepted_votes c h (vs ++ [v]) in
      if cm_quorum c <=? N.of_nat (length acc) then
        o = match cert_new_unverified aggregate dsig c h (pairs acc) with
            | Err e => Err e
            | Ok ct => match aggregated_signature (c_state ct) with
                       | None => Err InvalidSignature
                       | Some sig => Ok (Some (set_state ct (VerifiedDirectly sig)))
                       end
            end
      else o = Ok None
  end.

Lemma append_step dsig c h vs s v :
  committee_wf c -> va_inv c h vs s ->
  va_inv c h (vs ++ [v]) (fst (append dsig c h s v)) /\
  append_spec dsig c h vs v (snd (append dsig c h s v)).
Proof.
  intros Hwf (I1 & I2 & I3). unfold votes_append, append_spec.
  rewrite (memN_iff_ext (v_author v) (va_seen s) (map v_author vs)) by auto.
  unfold CertProofs.va_inv. rewrite !accepted_snoc.
  destruct (memN (v_author v) (map v_author vs)) eqn:Em; cbn [fst snd].
  { split; auto. rewrite app_nil_r. split; [auto|]. split; [auto|].
    intros x. rewrite map_app, in_app_iff, I3. cbn. apply memN_In in Em. intuition; subst; auto. }
  assert (Hseen : forall x, In x (v_author v :: va_seen s) <-> In x (map v_author (vs ++ [v]))).
  { intros x. rewrite map_app, in_app_iff. cbn. rewrite I3. tauto. }
  unfold CertProofs.good_vote. destruct (N.eqb_spec (v_digest v) (h_digest h)) as [Ed|Ed]; cbn [negb andb fst snd].
  2:{ rewrite app_nil_r. cbn. split; auto. }
  destruct (cm_authority c (v_author v)) as [a|] eqn:Ea; cbn [fst snd].
  2:{ rewrite app_nil_r. cbn. split; auto. }
  destruct (verify (v_digest v) (v_sig v) (a_key a)) eqn:Ev; cbn [negb fst snd].
  2:{ rewrite app_nil_r. cbn. split; auto. }
  cbn [va_weight va_votes va_seen].
  assert (Hp : voting_power_by_id c (v_author v) = 1).
  { unfold voting_power_by_id. unfold cm_authority in Ea. rewrite Ea. auto. }
  assert (Hlen : va_weight s + voting_power_by_id c (v_author v) =
                 N.of_nat (length (accepted_votes c h vs ++ [v]))).
  { rewrite app_length, Hp, I2. cbn [length]. lia. }
  assert (Hpairs : va_votes s ++ [(v_author v, v_sig v)] = pairs (accepted_votes c h vs ++ [v])).
  { unfold pairs. rewrite map_app, I1. reflexivity. }
  rewrite Hlen, Hpairs.
  destruct (cm_quorum c <=? N.of_nat (length (accepted_votes c h vs ++ [v]))); cbn [fst snd].
  - destruct (cert_new_unverified aggregate dsig c h (pairs (accepted_votes c h vs ++ [v]))); cbn [fst snd]; auto.
    destruct (aggregated_signature (c_state a0)); cbn [fst snd]; auto.
  - cbn. auto.
Qed.

Lemma va_inv_init c h : va_inv c h [] votes_agg_new.
Proof. repeat split; cbn; tauto. Qed.

Lemma run_inv dsig c h ws :
  committee_wf c -> forall vs s, va_inv c h vs s -> va_inv c h (vs ++ ws) (fst (run dsig c h s ws)).
Proof.
  intros Hwf. induction ws as [|w ws IH]; intros vs s Hi; cbn.
  - rewrite app_nil_r; auto.
  - destruct (append dsig c h s w) as [s1 o] eqn:E.
    destruct (run dsig c h s1 ws) as [s2 os] eqn:E2. cbn.
    pose proof (append_step dsig c h vs s w Hwf Hi) as [Hs _]. rewrite E in Hs. cbn in Hs.
    specialize (IH _ _ Hs). rewrite E2 in IH. cbn in IH. rewrite <- app_assoc in IH. auto.
Qed.

Lemma append_after dsig c h vs v :
  committee_wf c -> append_spec dsig c h vs v (snd (append dsig c h (fst (run dsig c h votes_agg_new vs)) v)).
Proof.
  intros Hwf. apply append_step; auto. apply (run_inv dsig c h vs Hwf [] _ (va_inv_init c h)).
Qed.

Lemma votes_by_key_facts c acc :
  committee_wf c -> NoDup (map v_author acc) ->
  (forall v, In v acc -> exists a, cm_authority c (v_author v) = Some a) ->
  let m := votes_by_key c (pairs acc) in
  bm_sorted m /\ length m = length acc /\
  (forall k s, In (k, s) m <-> exists v a, In v acc /\ cm_authority c (v_author v) = Some a /\ a_key a = k /\ v_sig v = s) /\
  (forall k, In k (bm_keys m) -> In k (bls_keys c)).
Proof.
  intros Hwf Hn Hm m.
  assert (Hk : NoDup (map fst (keyed c (pairs acc)))) by (apply keyed_NoDup; auto; rewrite pairs_fst; auto).
  pose proof (bm_of_list_perm _ Hk) as Hp.
  assert (Hin : forall k s, In (k, s) m <-> exists v a, In v acc /\ cm_authority c (v_author v) = Some a /\ a_key a = k /\ v_sig v = s).
  { intros k s. transitivity (In (k, s) (keyed c (pairs acc))).
    - split; intros Hx; [exact (Permutation_in _ Hp Hx)|exact (Permutation_in _ (Permutation_sym Hp) Hx)].
    - rewrite keyed_In. split.
      + intros (id & a & H1 & H2 & H3). unfold pairs in H1. apply in_map_iff in H1 as [v [Ev Hv]].
        inversion Ev; subst. eauto 10.
      + intros (v & a & H1 & H2 & H3 & H4). exists (v_author v), a. subst. repeat split; auto.
        unfold pairs. apply in_map_iff. eauto. }
  split; [apply bm_of_list_sorted|]. split.
  - unfold m, votes_by_key. etransitivity; [apply (Permutation_length Hp)|].
    rewrite keyed_length; [unfold pairs; apply map_length|].
    intros [id s] Hv. unfold pairs in Hv. apply in_map_iff in Hv as [v [Ev Hv]]. inversion Ev; subst. cbn. apply Hm; exact Hv.
  - split; [exact Hin|]. intros k Hkin. unfold bm_keys in Hkin. apply in_map_iff in Hkin as [[k' s] [E Hin']]. cbn in E; subst k'.
    apply Hin in Hin' as (v & a & H1 & H2 & H3 & H4). subst k. eapply cm_authority_In; eauto.
Qed.

Lemma votes_sound dsig c h vs v ct :
  committee_wf c ->
  snd (append dsig c h (fst (run dsig c h votes_agg_new vs)) v) = Ok (Some ct) ->
  let acc := accepted_votes c h (vs ++ [v]) in
  In v acc /\ cm_quorum c <= N.of_nat (length acc) /\
  c_header ct = h /\
  fst (signed_by ct (bls_keys c)) = N.of_nat (length acc) /\
  StronglySorted N.lt (snd (signed_by ct (bls_keys c))) /\
  (forall k, In k (snd (signed_by ct (bls_keys c))) <->
             exists w a, In w acc /\ cm_authority c (v_author w) = Some a /\ a_key a = k) /\
  exists sig, c_state ct = VerifiedDirectly sig /\
    aggregate (map snd (bm_of_list (keyed c (pairs acc)))) = Some sig.
Proof.
  intros Hwf E acc. pose proof (append_after dsig c h vs v Hwf) as S. unfold append_spec in S. rewrite E in S. clear E.
  fold acc in S.
  destruct (memN (v_author v) (map v_author vs)) eqn:Em; [discriminate|].
  destruct (negb (v_digest v =? h_digest h)) eqn:Ed; [discriminate|].
  destruct (cm_authority c (v_author v)) as [a|] eqn:Ea; [|discriminate].
  destruct (negb (verify (v_digest v) (v_sig v) (a_key a))) eqn:Ev; [discriminate|].
  destruct (N.leb_spec (cm_quorum c) (N.of_nat (length acc))) as [Hq|]; [|discriminate].
  destruct (cert_new_unverified aggregate dsig c h (pairs acc)) as [ct0|] eqn:En; [|discriminate].
  destruct (aggregated_signature (c_state ct0)) as [sig|] eqn:Es; [|discriminate].
  inversion S; subst ct; clear S.
  assert (Hmem : forall w, In w acc -> exists a, cm_authority c (v_author w) = Some a).
  { intros w Hw. apply accepted_good in Hw as (_ & _ & b & Hb & _). eauto. }
  destruct (votes_by_key_facts c acc Hwf (accepted_NoDup verify c h (vs ++ [v])) Hmem) as (F1 & F2 & F3 & F4).
  apply new_internal_ok in En as (N1 & N2 & N3 & N4 & N5 & N6 & N7); auto.
  split.
  { unfold acc. rewrite accepted_snoc, Em. unfold CertProofs.good_vote. rewrite Ea.
    apply negb_false_iff in Ed, Ev. rewrite Ed, Ev. cbn. apply in_app_iff; right; left; auto. }
  split; auto. split; auto.
  unfold signed_by in *. cbn [c_signers set_state] in *. rewrite N3. cbn [fst snd].
  split; [rewrite F2; auto|]. split; [exact F1|]. split.
  - intros k. split.
    + intros Hk. unfold bm_keys in Hk. apply in_map_iff in Hk as [[k' s] [E Hin]]. cbn in E; subst k'.
      apply F3 in Hin as (w & b & H1 & H2 & H3 & _). eauto.
    + intros (w & b & H1 & H2 & H3). subst k.
      assert (Hin : In (a_key b, v_sig w) (votes_by_key c (pairs acc))) by (apply F3; eauto 10).
      apply (in_map fst) in Hin. auto.
  - exists sig. split; auto. rewrite Es in N5. unfold votes_by_key in N5. fold (keyed c (pairs acc)) in N5.
    destruct (bm_of_list (keyed c (pairs acc))) eqn:Eb.
    + exfalso. unfold votes_by_key in F2. fold (keyed c (pairs acc)) in F2. rewrite Eb in F2. cbn in F2.
      rewrite <- F2 in Hq. rewrite (wf_quorum _ Hwf) in Hq. cbn in Hq. lia.
    + exact N5.
Qed.

Lemma votes_complete dsig c h vs v :
  committee_wf c ->
  ~ In (v_author v) (map v_author vs) -> good_vote c h v = true ->
  cm_quorum c <= N.of_nat (length (accepted_votes c h (vs ++ [v]))) ->
  (forall l, l <> [] -> aggregate l <> None) ->
  exists ct, snd (append dsig c h (fst (run dsig c h votes_agg_new vs)) v) = Ok (Some ct).
Proof.
  intros Hwf Hn Hg Hq Hagg. pose proof (append_after dsig c h vs v Hwf) as S. unfold append_spec in S.
  apply memN_nIn in Hn. rewrite Hn in S. unfold CertProofs.good_vote in Hg. apply andb_prop in Hg as [Hd Hg].
  rewrite Hd in S. cbn in S. destruct (cm_authority c (v_author v)) as [a|] eqn:Ea; [|discriminate].
  rewrite Hg in S. cbn in S. apply N.leb_le in Hq. rewrite Hq in S.
  set (acc := accepted_votes c h (vs ++ [v])) in *.
  assert (Hmem : forall w, In w acc -> exists a, cm_authority c (v_author w) = Some a).
  { intros w Hw. apply accepted_good in Hw as (_ & _ & b & Hb & _). eauto. }
  destruct (votes_by_key_facts c acc Hwf (accepted_NoDup verify c h (vs ++ [v])) Hmem) as (F1 & F2 & F3 & F4).
  unfold cert_new_unverified in S. rewrite new_internal_total in S; auto; [|rewrite F2; lia].
  destruct (aggregate (map snd (votes_by_key c (pairs acc)))) eqn:E.
  - cbn in S. eauto.
  - exfalso. eapply Hagg; [|exact E]. intro E0. apply (f_equal (@length N)) in E0. rewrite map_length, F2 in E0.
    cbn in E0. rewrite E0 in Hq. rewrite (wf_quorum _ Hwf) in Hq. cbn in Hq. lia.
Qed.

End Run.

(* ---------- certificate verification ---------- *)
Section Ver.
Variable averify : N -> N -> list N -> bool.
Lemma verify_signature_ok ct pks ct' :
  verify_signature averify ct pks = Ok ct' -> is_verified ct = false ->
  c_header ct' = c_header ct /\ exists sig, c_state ct = Unverified sig /\ averify (c_digest ct) sig pks = true.
Proof.
  unfold verify_signature, is_verified. destruct (c_state ct) as [|sig| | |]; try discriminate.
  destruct (averify (c_digest ct) sig pks) eqn:E; [|discriminate]. intros H _. inversion H; subst. cbn. eauto.
Qed.

Lemma verify_cert_ok keys ct ct' :
  verify_cert averify keys ct = Ok ct' ->
  exists sig, aggregated_signature (c_state ct) = Some sig /\
  c_header ct' = c_header ct /\
  quorum_threshold_n (N.of_nat (length keys)) <= fst (signed_by ct keys) /\
  averify (c_digest ct) sig (snd (signed_by ct keys)) = true.
Proof.
  unfold verify_cert, validate_received. destruct (aggregated_signature (c_state ct)) as [sig|] eqn:Es; [|discriminate].
  change (signed_by (set_state ct (Unverified sig)) keys) with (signed_by ct keys).
  destruct (signed_by ct keys) as [w pks] eqn:E.
  destruct (N.leb_spec (quorum_threshold_n (N.of_nat (length keys))) w); [|discriminate].
  intros H0. apply verify_signature_ok in H0; auto. destruct H0 as [H1 [sig' [H2 H3]]]. cbn in H2.
  inversion H2; subst sig'. exists sig. cbn. auto.
Qed.

Lemma validate_ok genesis c ct ct' :
  validate_and_verify averify genesis c ct = Ok ct' -> is_verified ct = false ->
  c_epoch ct = cm_epoch c /\
  ((c_round ct = 0 /\ exists g, In g genesis /\ cert_eqb g ct = true) \/
   (header_validate (c_header ct) c = Ok tt /\ c_header ct' = c_header ct /\
    cm_quorum c <= fst (signed_by ct (bls_keys c)) /\
    exists sig, c_state ct = Unverified sig /\ averify (c_digest ct) sig (snd (signed_by ct (bls_keys c))) = true)).
Proof.
  unfold validate_and_verify. intros H Hv.
  destruct (N.eqb_spec (c_epoch ct) (cm_epoch c)); [|discriminate]. cbn in H. split; auto.
  destruct ((c_round ct =? 0) && existsb (fun g => cert_eqb g ct) genesis) eqn:Eg.
  - left. apply andb_prop in Eg as [E1 E2]. apply existsb_exists in E2 as [g Hg]. split; [lia|eauto].
  - right. destruct (header_validate (c_header ct) c) as [[]|] eqn:Eh; [|discriminate].
    destruct (signed_by ct (bls_keys c)) as [w pks] eqn:Es.
    destruct (N.leb_spec (cm_quorum c) w); [|discriminate].
    apply verify_signature_ok in H; auto. destruct H as [H1 H2]. cbn. auto.
Qed.
End Ver.

(* ---------- C05: certificates aggregator ---------- *)
Fixpoint first_certs (seen : list N) (cs : list cert) : list cert :=
  match cs with
  | [] => []
  | x :: cs' => if memN (c_origin x) seen then first_certs seen cs' else x :: first_certs (c_origin x :: seen) cs'
  end.

Fixpoint certs_run (c : committee) (s : certs_agg) (cs : list cert) : certs_agg * list (option (list cert)) :=
  match cs with
  | [] => (s, [])
  | x :: cs' => let '(s1, o) := certs_append c s x in
                let '(s2, os) := certs_run c s1 cs' in (s2, o :: os)
  end.
Definition released (os : list (option (list cert))) : list cert :=
  flat_map (fun o => match o with Some l => l | None => [] end) os.

Lemma first_certs_ext s1 s2 vs : (forall x, In x s1 <-> In x s2) -> first_certs s1 vs = first_certs s2 vs.
Proof.
  revert s1 s2; induction vs as [|v vs IH]; intros s1 s2 H; auto. cbn.
  rewrite (memN_iff_ext _ s1 s2) by auto. destruct (memN (c_origin v) s2); auto.
  f_equal. apply IH. intros x; cbn; rewrite H; tauto.
Qed.

(* whatever the state: released now ++ still held = held before ++ first certificates of new origins *)
Lemma certs_run_conserve c s cs :
  let '(s', os) := certs_run c s cs in
  released os ++ ca_certs s' = ca_certs s ++ first_certs (ca_seen s) cs /\
  ca_weight s' = ca_weight s + group_power c (map c_origin (first_certs (ca_seen s) cs)).
Proof.
  revert s; induction cs as [|x cs IH]; intros s; cbn.
  - rewrite app_nil_r. split; auto. unfold group_power, sumN; cbn. lia.
  - unfold certs_append. destruct (memN (c_origin x) (ca_seen s)) eqn:Em.
    + specialize (IH s). destruct (certs_run c s cs) as [s2 os]. cbn. auto.
    + destruct (cm_quorum c <=? ca_weight s + voting_power_by_id c (c_origin x)).
      * specialize (IH (mkCertsAgg (ca_weight s + voting_power_by_id c (c_origin x)) [] (c_origin x :: ca_seen s))).
        destruct (certs_run c _ cs) as [s2 os]. cbn in *. destruct IH as [I1 I2]. split.
        -- unfold released in *. cbn. rewrite <- !app_assoc. rewrite I1. cbn. auto.
        -- rewrite I2. unfold group_power; cbn [map first_certs]; rewrite ?Em; cbn [map]. match goal with |- context [sumN (?a :: ?l)] => change (sumN (a :: l)) with (a + sumN l) end. lia.
      * specialize (IH (mkCertsAgg (ca_weight s + voting_power_by_id c (c_origin x)) (ca_certs s ++ [x]) (c_origin x :: ca_seen s))).
        destruct (certs_run c _ cs) as [s2 os]. cbn in *. destruct IH as [I1 I2]. split.
        -- unfold released in *. cbn. rewrite I1, <- app_assoc. auto.
        -- rewrite I2. unfold group_power; cbn [map first_certs]; rewrite ?Em; cbn [map]. match goal with |- context [sumN (?a :: ?l)] => change (sumN (a :: l)) with (a + sumN l) end. lia.
Qed.

Lemma certs_run_app c s cs ds :
  certs_run c s (cs ++ ds) =
  let '(s1, o1) := certs_run c s cs in let '(s2, o2) := certs_run c s1 ds in (s2, o1 ++ o2).
Proof.
  revert s; induction cs as [|x cs IH]; intros s; cbn.
  - destruct (certs_run c s ds); auto.
  - destruct (certs_append c s x) as [s1 o]. rewrite IH.
    destruct (certs_run c s1 cs) as [s2 o1]. destruct (certs_run c s2 ds) as [s3 o2]. auto.
Qed.

Lemma first_certs_app s vs ws :
  first_certs s (vs ++ ws) = first_certs s vs ++ first_certs (map c_origin vs ++ s) ws.
Proof.
  revert s; induction vs as [|v vs IH]; intros s; auto. cbn.
  destruct (memN (c_origin v) s) eqn:E; cbn.
  - rewrite IH. f_equal. apply first_certs_ext. intros x; cbn. apply memN_In in E.
    rewrite !in_app_iff. intuition; subst; auto.
  - f_equal. rewrite IH. f_equal. apply first_certs_ext. intros x; cbn.
    rewrite !in_app_iff. cbn. intuition.
Qed.

Lemma first_certs_In s vs v : In v (first_certs s vs) -> In v vs /\ ~ In (c_origin v) s.
Proof.
  revert s; induction vs as [|w vs IH]; intros s; cbn; [tauto|].
  destruct (memN (c_origin w) s) eqn:E; cbn.
  - intros H; apply IH in H; tauto.
  - apply memN_nIn in E. intros [<-|H]; auto. apply IH in H as [H1 H2]. cbn in H2. tauto.
Qed.

Lemma first_certs_NoDup s vs : NoDup (map c_origin (first_certs s vs)).
Proof.
  revert s; induction vs as [|w vs IH]; intros s; cbn; [constructor|].
  destruct (memN (c_origin w) s) eqn:E; cbn; auto. constructor; auto.
  intro H. apply in_map_iff in H as [v [Ev Hv]]. apply first_certs_In in Hv as [_ Hv].
  apply Hv. left. auto.
Qed.

Lemma first_certs_keep o s vs x :
  In x vs -> c_origin x = o -> ~ In o s -> exists y, In y (first_certs s vs) /\ c_origin y = o.
Proof.
  revert s; induction vs as [|v vs IH]; intros s Hin Ho Hn; [destruct Hin|]. cbn.
  destruct (memN (c_origin v) s) eqn:E.
  - destruct Hin as [->|Hin]; [|apply IH; auto]. apply memN_In in E. congruence.
  - destruct (N.eq_dec (c_origin v) o).
    + exists v. split; [left; auto|auto].
    + destruct Hin as [->|Hin]; [congruence|]. destruct (IH (c_origin v :: s) Hin Ho) as [y [Hy Ey]].
      * intros [|]; auto.
      * exists y. split; [right|]; auto.
Qed.

Lemma seen_run c s cs : forall x, In x (ca_seen (fst (certs_run c s cs))) <-> In x (map c_origin cs) \/ In x (ca_seen s).
Proof.
  revert s; induction cs as [|y cs IH]; intros s x; cbn; [tauto|].
  unfold certs_append. destruct (memN (c_origin y) (ca_seen s)) eqn:Em.
  - specialize (IH s x). destruct (certs_run c s cs) as [s2 os]; cbn in *. rewrite IH.
    apply memN_In in Em. intuition; subst; auto.
  - destruct (cm_quorum c <=? ca_weight s + voting_power_by_id c (c_origin y));
    match goal with |- context [certs_run c ?st cs] => specialize (IH st x); destruct (certs_run c st cs) as [s2 os] end; cbn in *; rewrite IH; tauto.
Qed.

(* the exact output of each append, given the history *)
Lemma certs_append_exact c cs x :
  let s := fst (certs_run c certs_agg_new cs) in
  let os := snd (certs_run c certs_agg_new cs) in
  snd (certs_append c s x) =
  if memN (c_origin x) (map c_origin cs) then None
  else if cm_quorum c <=? group_power c (map c_origin (first_certs [] (cs ++ [x])))
       then Some (ca_certs s ++ [x]) else None.
Proof.
  cbn zeta. pose proof (certs_run_conserve c certs_agg_new cs) as HC.
  pose proof (seen_run c certs_agg_new cs) as HS.
  destruct (certs_run c certs_agg_new cs) as [s os] eqn:E. cbn in *. destruct HC as [_ HW].
  unfold certs_append. rewrite (memN_iff_ext (c_origin x) (ca_seen s) (map c_origin cs)) by (rewrite HS; tauto).
  destruct (memN (c_origin x) (map c_origin cs)) eqn:Em; auto.
  assert (HG : ca_weight s + voting_power_by_id c (c_origin x) = group_power c (map c_origin (first_certs [] (cs ++ [x])))).
  { rewrite HW, first_certs_app. rewrite app_nil_r. cbn [first_certs]. rewrite Em.
    unfold group_power. rewrite !map_app, sumN_app. cbn [map]. match goal with |- context [sumN [?a]] => change (sumN [a]) with (a + 0) end. lia. }
  rewrite HG. destruct (cm_quorum c <=? group_power c (map c_origin (first_certs [] (cs ++ [x])))); auto.
Qed.

Lemma certs_nothing_lost c cs :
  released (snd (certs_run c certs_agg_new cs)) ++ ca_certs (fst (certs_run c certs_agg_new cs)) = first_certs [] cs /\
  NoDup (map c_origin (first_certs [] cs)) /\
  (forall x, In x cs -> exists y, In y (first_certs [] cs) /\ c_origin y = c_origin x).
Proof.
  pose proof (certs_run_conserve c certs_agg_new cs) as HC.
  destruct (certs_run c certs_agg_new cs) as [s os]. cbn in *. split; [tauto|]. split.
  - apply first_certs_NoDup.
  - intros x Hx. eapply first_certs_keep; eauto.
Qed.

(* ---------- the manager: each round sees exactly its own certificates since it was last collected ---------- *)
(* history most recent first; result oldest first *)
Fixpoint round_certs (r : N) (hist : list cam_op) : list cert :=
  match hist with
  | [] => []
  | CamAppend ct :: t => if c_round ct =? r then round_certs r t ++ [ct] else round_certs r t
  | CamGc gc :: t => if r <=? gc then [] else round_certs r t
  end.

Lemma cam_state_app c a b m : cam_state c (a ++ b) m = cam_state c b (cam_state c a m).
Proof. revert m; induction a as [|o a IH]; intros m; simpl; auto. Qed.

Lemma filter_lookup {V} (p : N -> bool) k (m : bmap V) :
  bm_lookup k (filter (fun kv => p (fst kv)) m) = if p k then bm_lookup k m else None.
Proof.
  induction m as [|[a b] m IH]; simpl; [destruct (p k); reflexivity|].
  destruct (p a) eqn:Pa; simpl; destruct (N.eqb_spec k a) as [->|ne]; rewrite ?Pa; auto.
  rewrite IH, Pa. reflexivity.
Qed.

Lemma filter_sorted {V} (p : N -> bool) (m : bmap V) :
  bm_sorted m -> bm_sorted (filter (fun kv => p (fst kv)) m).
Proof.
  unfold bm_sorted, bm_keys. induction m as [|[a b] m IH]; simpl; intros H; [constructor|].
  inversion H as [|? ? Hs Hf]; subst. destruct (p a); [|auto]. simpl. constructor; [auto|].
  rewrite Forall_forall in *. intros x Hx. apply Hf. apply in_map_iff in Hx as (e & <- & He).
  apply in_map. apply filter_In in He. tauto.
Qed.

Lemma cam_correct c ops : let m := cam_state c ops [] in
  bm_sorted m /\
  forall r, cam_get m r = fst (certs_run c certs_agg_new (round_certs r (rev ops))).
Proof.
  induction ops as [|o ops IH] using rev_ind; cbv zeta.
  - split; [constructor|]. reflexivity.
  - cbv zeta in IH. destruct IH as [IS IG]. rewrite cam_state_app, rev_app_distr. cbn [rev app cam_state].
    set (m := cam_state c ops []) in *. destruct o as [ct|gc]; cbn [cam_step].
    + unfold cam_append. destruct (certs_append c (cam_get m (c_round ct)) ct) as [a o] eqn:E. cbn [fst].
      split; [apply bm_insert_sorted; assumption|].
      intros r. unfold cam_get at 1. rewrite bm_lookup_insert by assumption. cbn [round_certs].
      rewrite (N.eqb_sym r). destruct (N.eqb_spec (c_round ct) r) as [<-|ne].
      * rewrite certs_run_app. rewrite IG in E.
        destruct (certs_run c certs_agg_new (round_certs (c_round ct) (rev ops))) as [s1 o1].
        cbn [certs_run fst] in *. rewrite E. reflexivity.
      * apply IG.
    + unfold cam_gc. split; [apply (filter_sorted (fun k => gc <? k)); assumption|].
      intros r. unfold cam_get. cbn [fst]. rewrite (filter_lookup (fun k => gc <? k)). cbn [round_certs].
      destruct (N.ltb_spec gc r) as [L|L].
      * rewrite (proj2 (N.leb_gt r gc)) by assumption. apply IG.
      * rewrite (proj2 (N.leb_le r gc)) by assumption. reflexivity.
Qed.

Lemma cam_step_exact c ops ct :
  snd (cam_step c (cam_state c ops []) (CamAppend ct)) =
  match snd (certs_append c (fst (certs_run c certs_agg_new (round_certs (c_round ct) (rev ops)))) ct) with
  | Some l => Some (l, c_round ct)
  | None => None
  end.
Proof.
  pose proof (cam_correct c ops) as [_ G]. cbv zeta in G. cbn [cam_step]. unfold cam_append.
  rewrite G. destruct (certs_append c _ ct) as [a [l|]]; reflexivity.
Qed.

Lemma cam_release_exact c ops ct :
  let seen := round_certs (c_round ct) (rev ops) in
  snd (cam_step c (cam_state c ops []) (CamAppend ct)) =
  (if memN (c_origin ct) (map c_origin seen) then None
   else if cm_quorum c <=? group_power c (map c_origin (first_certs [] (seen ++ [ct])))
        then Some (ca_certs (fst (certs_run c certs_agg_new seen)) ++ [ct], c_round ct) else None).
Proof.
  cbv zeta. rewrite cam_step_exact, certs_append_exact.
  destruct (memN _ _); [reflexivity|]. destruct (cm_quorum c <=? _); reflexivity.
Qed.
