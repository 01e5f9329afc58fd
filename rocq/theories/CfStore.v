(** The three tables of the certificate store agree after every history. *)
From Verif Require Import Util CfModel CfSpec.
Local Open Scope N_scope.

Lemma plt_spec a b : plt a b = true <-> fst a < fst b \/ (fst a = fst b /\ snd a < snd b).
Proof. unfold plt. lia. Qed.
Lemma plt_spec_f a b : plt a b = false <-> fst b < fst a \/ (fst a = fst b /\ snd b <= snd a).
Proof. unfold plt. lia. Qed.
Lemma peq_spec a b : peq a b = true <-> a = b.
Proof. unfold peq. destruct a, b; cbn. split; [intros; f_equal; lia|intros [= -> ->]; lia]. Qed.
Lemma peq_refl a : peq a a = true.
Proof. apply peq_spec; auto. Qed.
Lemma peq_false a b : peq a b = false <-> a <> b.
Proof. rewrite <- peq_spec. destruct (peq a b); split; congruence. Qed.
Definition pl (a b : pkey) : Prop := plt a b = true.
Definition psorted {V} (m : ptab V) : Prop := StronglySorted pl (map fst m).
Lemma pl_irrefl a : ~ pl a a.
Proof. unfold pl. rewrite plt_spec. lia. Qed.
Lemma pl_trans a b c : pl a b -> pl b c -> pl a c.
Proof. unfold pl. rewrite !plt_spec. lia. Qed.
Lemma pl_total a b : pl a b \/ a = b \/ pl b a.
Proof.
  unfold pl. rewrite !plt_spec. destruct a as [a1 a2], b as [b1 b2]; cbn.
  destruct (N.lt_trichotomy a1 b1) as [?|[->|?]]; [auto| |auto].
  destruct (N.lt_trichotomy a2 b2) as [?|[->|?]]; auto.
Qed.
Lemma pl_swap a b : plt a b = false -> a = b \/ pl b a.
Proof. intros H. destruct (pl_total a b) as [X|[X|X]]; auto. unfold pl in X. congruence. Qed.

Lemma psorted_cons {V} (x : pkey * V) m : psorted (x :: m) <-> psorted m /\ (forall y, In y m -> pl (fst x) (fst y)).
Proof.
  unfold psorted; cbn. split.
  - intros H. inversion H as [|? ? Hs Hf]; subst. split; auto. intros y Hy. rewrite Forall_forall in Hf. apply Hf, in_map; auto.
  - intros [Hs Hf]. constructor; auto. apply Forall_forall. intros k Hk. apply in_map_iff in Hk as [y [<- Hy]]. auto.
Qed.

Lemma pt_insert_In {V} k (v : V) m x : psorted m ->
  (In x (pt_insert k v m) <-> x = (k, v) \/ (fst x <> k /\ In x m)).
Proof.
  induction m as [|y m IH]; intros H.
  - cbn. split; [intros [<-|[]]; auto|intros [->|[_ []]]; auto].
  - apply psorted_cons in H as [Hs Hf]. cbn [pt_insert]. destruct (plt k (fst y)) eqn:E.
    + cbn. split.
      * intros [<-|[<-|Hi]]; auto; right; split; auto.
        -- intros Ek. rewrite Ek in E. apply (pl_irrefl _ E).
        -- intros Ek. apply (pl_irrefl k). eapply pl_trans; [exact E|]. rewrite <- Ek. auto.
      * intros [->|[_ [<-|Hi]]]; auto.
    + destruct (peq k (fst y)) eqn:E2.
      * apply peq_spec in E2. cbn. split.
        -- intros [<-|Hi]; auto. right. split; auto. intros Ek. specialize (Hf _ Hi). rewrite Ek, E2 in Hf. apply (pl_irrefl _ Hf).
        -- intros [->|[Hn [<-|Hi]]]; auto. congruence.
      * cbn. rewrite IH; auto. apply peq_false in E2. split.
        -- intros [<-|[->|[Hn Hi]]]; auto.
        -- intros [->|[Hn [<-|Hi]]]; auto.
Qed.
Lemma pt_insert_sorted {V} k (v : V) m : psorted m -> psorted (pt_insert k v m).
Proof.
  induction m as [|y m IH]; intros H.
  - cbn. repeat constructor.
  - pose proof H as H0. apply psorted_cons in H as [Hs Hf]. cbn [pt_insert]. destruct (plt k (fst y)) eqn:E.
    + apply psorted_cons. split; auto. intros z [<-|Hz]; auto. eapply pl_trans; [exact E|]. auto.
    + destruct (peq k (fst y)) eqn:E2.
      * apply peq_spec in E2. subst k. apply psorted_cons. split; auto.
      * apply psorted_cons. split; auto. intros z Hz. apply pt_insert_In in Hz; auto.
        apply peq_false in E2. destruct Hz as [->|[_ Hz]]; auto. cbn.
        destruct (pl_swap _ _ E); auto. congruence.
Qed.
Lemma pt_get_In {V} k (v : V) m : psorted m -> (pt_get k m = Some v <-> In (k, v) m).
Proof.
  unfold pt_get. induction m as [|y m IH]; intros H.
  - cbn. split; [discriminate|tauto].
  - apply psorted_cons in H as [Hs Hf]. cbn [find]. destruct (peq k (fst y)) eqn:E.
    + apply peq_spec in E. subst k. split.
      * intros [= <-]. left. destruct y; auto.
      * intros [->|Hi]; auto. exfalso. apply (pl_irrefl (fst y)). apply (Hf _ Hi).
    + apply peq_false in E. rewrite IH; auto. cbn. split; auto. intros [->|Hi]; auto. cbn in E. congruence.
Qed.
Lemma pt_remove_In {V} k (m : ptab V) x : In x (pt_remove k m) <-> In x m /\ fst x <> k.
Proof.
  unfold pt_remove. rewrite filter_In, negb_true_iff, peq_false. split; intros [? ?]; split; auto.
Qed.
Lemma psorted_filter {V} f (m : ptab V) : psorted m -> psorted (filter f m).
Proof.
  induction m as [|y m IH]; intros H; [constructor|]. apply psorted_cons in H as [Hs Hf]. cbn [filter].
  destruct (f y); auto. apply psorted_cons. split; auto. intros z Hz. apply filter_In in Hz as [Hz _]. auto.
Qed.
Lemma bt_remove_In {V} k (m : bmap V) x : In x (bt_remove k m) <-> In x m /\ fst x <> k.
Proof.
  unfold bt_remove. rewrite filter_In, negb_true_iff, N.eqb_neq. split; intros [? ?]; split; auto.
Qed.
Lemma bt_remove_sorted {V} k (m : bmap V) : bm_sorted m -> bm_sorted (bt_remove k m).
Proof.
  unfold bm_sorted, bm_keys, bt_remove. induction m as [|y m IH]; intros H; [constructor|].
  cbn [map] in H. inversion H as [|? ? Hs Hf]; subst. cbn [filter].
  destruct (negb (k =? fst y)); auto. cbn [map]. constructor; auto.
  rewrite Forall_forall in *. intros z Hz. apply in_map_iff in Hz as [w [<- Hw]]. apply filter_In in Hw as [Hw _].
  apply Hf, in_map; auto.
Qed.
Lemma pt_skip_to_In {V} k (m : ptab V) x : psorted m -> (In x (pt_skip_to k m) <-> In x m /\ plt (fst x) k = false).
Proof.
  induction m as [|y m IH]; intros H; [cbn; tauto|]. pose proof H as H0. apply psorted_cons in H as [Hs Hf].
  cbn [pt_skip_to]. destruct (plt (fst y) k) eqn:E.
  - rewrite IH; auto. cbn. split; [tauto|]. intros [[<-|Hi] Hn]; [congruence|auto].
  - split; [|tauto]. intros Hi. split; auto. destruct Hi as [<-|Hi]; auto.
    apply plt_spec_f. apply plt_spec_f in E. specialize (Hf _ Hi). apply plt_spec in Hf. lia.
Qed.
Lemma pt_skip_to_sorted {V} k (m : ptab V) : psorted m -> psorted (pt_skip_to k m).
Proof.
  induction m as [|y m IH]; intros H; auto. pose proof H as H0. apply psorted_cons in H as [Hs Hf].
  cbn [pt_skip_to]. destruct (plt (fst y) k); auto.
Qed.
(** the row found is the last one before the key *)
Lemma pt_prior_spec {V} k (m : ptab V) : psorted m -> forall last,
  (match last with Some y => plt (fst y) k = true /\ (forall z, In z m -> pl (fst y) (fst z)) | None => True end) ->
  match pt_prior k last m with
  | None => last = None /\ forall z, In z m -> plt (fst z) k = false
  | Some x => (last = Some x \/ In x m) /\ plt (fst x) k = true /\
              forall z, In z m -> plt (fst z) k = true -> z = x \/ pl (fst z) (fst x)
  end.
Proof.
  induction m as [|y m IH]; intros H last Hl.
  - cbn. destruct last as [x|]; [|split; auto; intros z []]. destruct Hl as [Hl _]. split; auto. split; auto. intros z [].
  - apply psorted_cons in H as [Hs Hf]. cbn [pt_prior]. destruct (plt (fst y) k) eqn:E; cbn.
    + specialize (IH Hs (Some y)). cbn in IH. specialize (IH (conj E Hf)).
      destruct (pt_prior k (Some y) m) as [x|].
      * destruct IH as [[[= ->]|Hi] [Hk Hm]].
        -- split; [auto|]. split; auto. intros z [<-|Hz] Hzk; auto.
        -- split; [auto|]. split; auto. intros z [<-|Hz] Hzk; auto.
      * destruct IH as [E1 _]. discriminate E1.
    + destruct last as [x|].
      * destruct Hl as [Hk Hx]. split; auto. split; auto. intros z Hz Hzk. exfalso.
        assert (Hy : plt (fst z) k = false).
        { destruct Hz as [<-|Hz]; auto. apply plt_spec_f. apply plt_spec_f in E. specialize (Hf _ Hz). apply plt_spec in Hf. lia. }
        congruence.
      * split; auto. intros z [<-|Hz]; auto.
        apply plt_spec_f. apply plt_spec_f in E. specialize (Hf _ Hz). apply plt_spec in Hf. lia.
Qed.

(** ---------- the invariant ---------- *)
Definition row (c : fcert) : pkey * N := ((f_round c, f_origin c), f_dig c).
Definition orow (c : fcert) : pkey * N := ((f_origin c, f_round c), f_dig c).
Definition same_slot (c c' : fcert) : Prop := f_origin c = f_origin c' /\ f_round c = f_round c'.
Record Inv (s : cstore) (P : fcert -> Prop) : Prop := mkInv {
  i_certs : bm_sorted (cs_certs s);
  i_rs : psorted (cs_round s);
  i_os : psorted (cs_origin s);
  i_c : forall d c, In (d, c) (cs_certs s) <-> P c /\ f_dig c = d;
  i_r : forall x, In x (cs_round s) <-> exists c, P c /\ x = row c;
  i_o : forall x, In x (cs_origin s) <-> exists c, P c /\ x = orow c;
  i_u : forall c c', P c -> P c' -> (f_dig c = f_dig c' <-> same_slot c c');
  i_eq : forall c c', P c -> P c' -> f_dig c = f_dig c' -> c = c';
  i_fit : forall c, P c -> f_round c < U32MAX
}.
Lemma Inv_ext s P Q : Inv s P -> (forall c, P c <-> Q c) -> Inv s Q.
Proof.
  intros [A B C D E F G H I] HE. constructor; auto.
  - intros d c. rewrite D, HE. tauto.
  - intros x. rewrite E. split; intros [c [X Y]]; exists c; split; auto; apply HE; auto.
  - intros x. rewrite F. split; intros [c [X Y]]; exists c; split; auto; apply HE; auto.
  - intros c c' X Y. apply G; apply HE; auto.
  - intros c c' X Y. apply H; apply HE; auto.
  - intros c X. apply I, HE; auto.
Qed.
Lemma Inv_empty : Inv cs_empty (fun _ => False).
Proof.
  constructor; cbn [cs_empty cs_certs cs_round cs_origin].
  - constructor.
  - constructor.
  - constructor.
  - intros d c. cbn. tauto.
  - intros x. split; [intros []|intros [c [[] _]]].
  - intros x. split; [intros []|intros [c [[] _]]].
  - intros c c' [].
  - intros c c' [].
  - intros c [].
Qed.
Lemma row_key c c' : fst (row c) = fst (row c') <-> same_slot c c'.
Proof. unfold row, same_slot; cbn. split; [intros [= -> ->]; auto|intros [-> ->]; auto]. Qed.
Lemma orow_key c c' : fst (orow c) = fst (orow c') <-> same_slot c c'.
Proof. unfold orow, same_slot; cbn. split; [intros [= -> ->]; auto|intros [-> ->]; auto]. Qed.

Lemma bm_insert_In {V} k (v : V) m x : bm_sorted m ->
  (In x (bm_insert k v m) <-> x = (k, v) \/ (fst x <> k /\ In x m)).
Proof.
  intros Hs. destruct x as [a b]. rewrite <- (bm_lookup_In a b _ (bm_insert_sorted k v m Hs)).
  rewrite bm_lookup_insert; auto. cbn. destruct (N.eqb_spec a k) as [->|Hn].
  - split; [intros [= ->]; auto|intros [[= ->]|[X _]]; auto; congruence].
  - rewrite bm_lookup_In; auto. split; auto. intros [[= -> _]|[_ X]]; auto. congruence.
Qed.

Lemma Inv_save s P c : Inv s P -> f_round c < U32MAX ->
  (forall c', P c' -> (f_dig c = f_dig c' <-> same_slot c c')) ->
  Inv (save_cert c s) (fun x => x = c \/ (P x /\ f_dig x <> f_dig c)).
Proof.
  intros [A B C D E F G H I] Hfit Hu.
  assert (Hsym : forall c', P c' -> (f_dig c' = f_dig c <-> same_slot c' c)).
  { intros c' Hc'. specialize (Hu c' Hc'). unfold same_slot in *. split; intros X.
    - symmetry in X. apply Hu in X. destruct X; auto.
    - symmetry. apply Hu. destruct X; auto. }
  constructor; cbn [save_cert cs_certs cs_round cs_origin].
  - apply bm_insert_sorted; auto.
  - apply pt_insert_sorted; auto.
  - apply pt_insert_sorted; auto.
  - intros d x. rewrite bm_insert_In; auto. cbn. rewrite D. split.
    + intros [[= -> ->]|[Hn [Hp <-]]]; auto.
    + intros [[->|[Hp Hn]] <-]; auto.
  - intros x. rewrite pt_insert_In; auto. rewrite E. split.
    + intros [->|[Hn [c' [Hp ->]]]].
      * exists c. auto.
      * exists c'. split; auto. right. split; auto. intros X. apply Hn. apply Hsym in X; auto. apply (row_key c' c); auto.
    + intros [c' [[->|[Hp Hn]] ->]]; auto. right. split; [|exists c'; auto].
      intros X. apply Hn, Hsym; auto. apply row_key. exact X.
  - intros x. rewrite pt_insert_In; auto. rewrite F. split.
    + intros [->|[Hn [c' [Hp ->]]]].
      * exists c. auto.
      * exists c'. split; auto. right. split; auto. intros X. apply Hn. apply Hsym in X; auto. apply (orow_key c' c); auto.
    + intros [c' [[->|[Hp Hn]] ->]]; auto. right. split; [|exists c'; auto].
      intros X. apply Hn, Hsym; auto. apply orow_key. exact X.
  - intros x y [->|[Px Nx]] [->|[Py Ny]]; auto. unfold same_slot. tauto.
  - intros x y [->|[Px Nx]] [->|[Py Ny]] X; auto; congruence.
  - intros x [->|[Px _]]; auto.
Qed.

(** removing the three rows of a certificate [c] (stored or not) that shares its slot only with its digest *)
Lemma Inv_remove s P c : Inv s P ->
  (forall c', P c' -> (f_dig c = f_dig c' <-> same_slot c c')) ->
  Inv (gc_remove s (row c)) (fun x => P x /\ f_dig x <> f_dig c).
Proof.
  intros [A B C D E F G H I] Hu.
  assert (Hsym : forall c', P c' -> (f_dig c' = f_dig c <-> same_slot c' c)).
  { intros c' Hc'. specialize (Hu c' Hc'). unfold same_slot in *. split; intros X.
    - symmetry in X. apply Hu in X. destruct X; auto.
    - symmetry. apply Hu. destruct X; auto. }
  constructor; cbn [gc_remove row cs_certs cs_round cs_origin fst snd].
  - apply bt_remove_sorted; auto.
  - apply psorted_filter; auto.
  - apply psorted_filter; auto.
  - intros d x. rewrite bt_remove_In. cbn. rewrite D. split; [intros [[X <-] Y]; auto|intros [[X Y] <-]; auto].
  - intros x. rewrite pt_remove_In, E. split.
    + intros [[c' [Hp ->]] Hn]. exists c'. split; auto. split; auto. intros X. apply Hn. apply Hsym in X; auto.
      apply (row_key c' c); auto.
    + intros [c' [[Hp Hn] ->]]. split; [exists c'; auto|]. intros X. apply Hn, Hsym; auto. apply row_key. exact X.
  - intros x. rewrite pt_remove_In, F. split.
    + intros [[c' [Hp ->]] Hn]. exists c'. split; auto. split; auto. intros X. apply Hn. apply Hsym in X; auto.
      apply (orow_key c' c); auto.
    + intros [c' [[Hp Hn] ->]]. split; [exists c'; auto|]. intros X. apply Hn, Hsym; auto. apply orow_key. exact X.
  - intros x y [Px Nx] [Py Ny]; auto.
  - intros x y [Px Nx] [Py Ny]; auto.
  - intros x [Px _]; auto.
Qed.
Lemma Inv_remove_all l : forall s P, Inv s P ->
  (forall c c', In c l -> P c' -> (f_dig c = f_dig c' <-> same_slot c c')) ->
  Inv (fold_left gc_remove (map row l) s) (fun x => P x /\ forall c, In c l -> f_dig x <> f_dig c).
Proof.
  induction l as [|c l IH]; intros s P HI Hu.
  - cbn. eapply Inv_ext; [exact HI|]. intros x. split; [intros X; split; auto|tauto].
  - cbn [map fold_left]. eapply Inv_ext.
    + apply IH; [apply Inv_remove; [exact HI|]|].
      * intros c' Hc'. apply Hu; auto. left; auto.
      * intros c1 c' H1 [H2 _]. apply Hu; auto. right; auto.
    + intros x. cbn. split.
      * intros [[Hp Hn] Ha]. split; auto. intros c1 [<-|Hc1]; auto.
      * intros [Hp Ha]. split; [split; auto|]. intros c1 Hc1. auto.
Qed.
Lemma gc_list_filter t m : psorted m -> gc_list t m = filter (fun x => fst (fst x) <? t) m.
Proof.
  induction m as [|y m IH]; intros H; auto. apply psorted_cons in H as [Hs Hf]. cbn [gc_list filter].
  unfold pkey in *. destruct (fst (fst y) <? t) eqn:E; [rewrite (IH Hs); reflexivity|].
  symmetry. destruct (filter (fun x => fst (fst x) <? t) m) as [|z l] eqn:Ef; auto.
  assert (Hz : In z (filter (fun x => fst (fst x) <? t) m)) by (rewrite Ef; left; auto).
  apply filter_In in Hz as [Hz Hlt]. specialize (Hf _ Hz). apply plt_spec in Hf. lia.
Qed.
Lemma rows_are_certs s P m : Inv s P -> (forall x, In x m -> In x (cs_round s)) ->
  exists l, m = map row l /\ forall c, In c l -> P c.
Proof.
  intros HI. induction m as [|y m IH]; intros Hs.
  - exists []. split; auto. intros c [].
  - destruct IH as [l [-> Hl]]; [intros x Hx; apply Hs; right; auto|].
    destruct (proj1 (i_r _ _ HI y) (Hs y (or_introl eq_refl))) as [c [Hc ->]].
    exists (c :: l). split; auto. intros c' [<-|Hc']; auto.
Qed.
Lemma Inv_gc s P r : Inv s P -> Inv (gc_rounds r s) (fun c => P c /\ (r <= 64 \/ r - 64 <= f_round c)).
Proof.
  intros HI. unfold gc_rounds. change ROUNDS_TO_KEEP with 64. destruct (N.leb_spec r 64) as [Hle|Hgt].
  - eapply Inv_ext; [exact HI|]. intros c. split; [intros X; split; auto|tauto].
  - rewrite gc_list_filter; [|apply (i_rs _ _ HI)].
    destruct (rows_are_certs s P (filter (fun x => fst (fst x) <? r - 64) (cs_round s)) HI) as [l [El Hl]].
    { intros x Hx. apply filter_In in Hx. tauto. }
    rewrite El. eapply Inv_ext.
    + apply Inv_remove_all; [exact HI|]. intros c c' Hc Hc'. apply (i_u _ _ HI); auto.
    + intros c. cbn. split.
      * intros [Hp Ha]. split; auto. right. destruct (N.le_gt_cases (r - 64) (f_round c)) as [|Hlt]; auto. exfalso.
        assert (Hin : In (row c) (map row l)).
        { rewrite <- El. apply filter_In. split; [apply (i_r _ _ HI); exists c; auto|]. cbn. lia. }
        apply in_map_iff in Hin as [c1 [E1 H1]]. apply (Ha c1 H1). unfold row in E1. congruence.
      * intros [Hp Hr]. split; auto. intros c1 H1 Ed.
        assert (Hin : In (row c1) (map row l)) by (apply in_map; auto).
        rewrite <- El in Hin. apply filter_In in Hin as [_ Hlt]. cbn in Hlt.
        apply (i_u _ _ HI) in Ed; [|auto|auto]. destruct Ed as [_ Er]. lia.
Qed.
Lemma Inv_delete s P d : Inv s P -> Inv (cs_delete d s) (fun c => P c /\ d <> f_dig c).
Proof.
  intros HI. unfold cs_delete. destruct (bm_lookup d (cs_certs s)) as [c|] eqn:El.
  - apply bm_lookup_In in El; [|apply (i_certs _ _ HI)]. apply (i_c _ _ HI) in El as [Hp <-].
    eapply Inv_ext; [apply (Inv_remove s P c HI)|].
    + intros c' Hc'. apply (i_u _ _ HI); auto.
    + intros x. cbn. split; intros [X Y]; split; auto.
  - eapply Inv_ext; [exact HI|]. intros c. split; [|tauto]. intros X. split; auto. intros ->.
    apply bm_lookup_None in El. apply El. change (f_dig c) with (fst (f_dig c, c)). apply in_map. apply (i_c _ _ HI). auto.
Qed.

(** ---------- histories ---------- *)
Lemma stored_snoc ops op c : stored (ops ++ [op]) c <-> op = OSave c \/ (stored ops c /\ keeps c op).
Proof.
  unfold stored. split.
  - intros [a [b [E Hb]]]. destruct b as [|z b0] using rev_ind.
    + change (a ++ [OSave c]) with (a ++ [OSave c]) in E. apply app_inj_tail in E as [_ <-]. auto.
    + clear IHb0. rewrite app_comm_cons, app_assoc in E. apply app_inj_tail in E as [E <-].
      apply Forall_app in Hb as [Hb Hz]. right. split; [exists a, b0; auto|]. inversion Hz; auto.
  - intros [->|[[a [b [-> Hb]]] Hk]].
    + exists ops, []. auto.
    + exists a, (b ++ [op]). split; [rewrite <- app_assoc; auto|]. apply Forall_app. auto.
Qed.
Lemma stored_saved ops c : stored ops c -> In (OSave c) ops.
Proof. intros [a [b [-> _]]]. apply in_app_iff. right. left. auto. Qed.
Lemma run_ops_Inv ops : one_per_slot ops -> rounds_fit ops -> Inv (run_ops ops) (stored ops).
Proof.
  unfold run_ops. induction ops as [|op ops IH] using rev_ind; intros Hu Hf.
  - cbn. eapply Inv_ext; [apply Inv_empty|]. intros c. split; [tauto|]. intros [a [b [E _]]]. destruct a; discriminate E.
  - rewrite fold_left_app. cbn [fold_left].
    assert (HI : Inv (fold_left run_op ops cs_empty) (stored ops)).
    { apply IH.
      - intros c c' H1 H2. apply Hu; apply in_app_iff; auto.
      - intros c H1. apply Hf; apply in_app_iff; auto. }
    destruct op as [c|r|d|]; cbn [run_op].
    + eapply Inv_ext; [apply Inv_save; [exact HI| |]|].
      * apply Hf. apply in_app_iff. right; left; auto.
      * intros c' Hc'. apply Hu; apply in_app_iff; [right; left; auto|left; apply stored_saved; auto].
      * intros x. rewrite stored_snoc. cbn. split.
        -- intros [->|[X Y]]; auto.
        -- intros [[= ->]|[X Y]]; auto.
    + eapply Inv_ext; [apply Inv_gc; exact HI|]. intros x. rewrite stored_snoc. cbn. split; [auto|].
      intros [X|X]; [discriminate X|auto].
    + eapply Inv_ext; [apply Inv_delete; exact HI|]. intros x. rewrite stored_snoc. cbn. split; [auto|].
      intros [X|X]; [discriminate X|auto].
    + eapply Inv_ext; [apply Inv_empty|]. intros x. rewrite stored_snoc. cbn. split; [tauto|].
      intros [X|X]; [discriminate X|tauto].
Qed.
Lemma run_ops_app a b : run_ops (a ++ b) = fold_left run_op b (run_ops a).
Proof. unfold run_ops. apply fold_left_app. Qed.
Lemma write_is_ops c s : cs_write c s = run_op (run_op s (OSave c)) (OGc (f_round c)).
Proof. reflexivity. Qed.
Lemma write_all_is_ops l s :
  cs_write_all l s = run_op (fold_left run_op (map OSave l) s) (OGc (max_round l)).
Proof.
  unfold cs_write_all, save_all. cbn [run_op]. f_equal. revert s. induction l as [|c l IH]; intros s; cbn; auto.
Qed.

(** ---------- queries ---------- *)
Section Queries.
Variables (s : cstore) (P : fcert -> Prop).
Hypothesis HI : Inv s P.
Lemma q_read d c : cs_read d s = Some c <-> P c /\ f_dig c = d.
Proof. unfold cs_read. rewrite bm_lookup_In; [apply (i_c _ _ HI)|apply (i_certs _ _ HI)]. Qed.
Lemma q_by_index o r c : cs_read_by_index o r s = Some c <-> P c /\ f_origin c = o /\ f_round c = r.
Proof.
  unfold cs_read_by_index. split.
  - destruct (pt_get (o, r) (cs_origin s)) as [d|] eqn:E; [|discriminate].
    apply pt_get_In in E; [|apply (i_os _ _ HI)]. apply (i_o _ _ HI) in E as [c' [Hp E]]. unfold orow in E.
    injection E as -> -> ->. intros Hr. apply q_read in Hr as [Hc Hd].
    pose proof (i_eq _ _ HI _ _ Hc Hp Hd). subst c'. auto.
  - intros [Hp [<- <-]].
    assert (E : pt_get (f_origin c, f_round c) (cs_origin s) = Some (f_dig c)).
    { apply pt_get_In; [apply (i_os _ _ HI)|]. apply (i_o _ _ HI). exists c. auto. }
    rewrite E. apply q_read. auto.
Qed.
Lemma q_contains d : cs_contains d s = true <-> exists c, P c /\ f_dig c = d.
Proof.
  unfold cs_contains. fold (cs_read d s). destruct (cs_read d s) as [c|] eqn:E.
  - apply q_read in E. split; auto. intros _. exists c; auto.
  - split; [discriminate|]. intros [c Hc]. apply q_read in Hc. congruence.
Qed.
Lemma rows_from_In round x : In x (rows_from round s) <->
  In x (cs_round s) /\ (round = 0 \/ round - 1 <= fst (fst x)).
Proof.
  unfold rows_from. destruct (N.ltb_spec 0 round) as [H|H].
  - rewrite pt_skip_to_In; [|apply (i_rs _ _ HI)]. rewrite plt_spec_f. cbn [fst snd]. split; intros [A B]; split; auto; lia.
  - split; [intros A; split; auto; lia|tauto].
Qed.
Lemma rows_from_sorted round : psorted (rows_from round s).
Proof. unfold rows_from. destruct (0 <? round); [apply pt_skip_to_sorted|]; apply (i_rs _ _ HI). Qed.
Lemma deref_spec round rows : psorted rows -> (forall x, In x rows -> In x (cs_round s)) ->
  exists l, deref round rows s = Some l /\ StronglySorted slot_lt l /\
    forall c, In c l <-> P c /\ round <= f_round c /\ In (row c) rows.
Proof.
  induction rows as [|x rows IH]; intros Hs Hin.
  - exists []. split; auto. split; [constructor|]. intros c. cbn. tauto.
  - apply psorted_cons in Hs as [Hs Hf].
    destruct (IH Hs) as [l [El [Hl Hm]]]; [intros; apply Hin; right; auto|].
    destruct (proj1 (i_r _ _ HI x) (Hin x (or_introl eq_refl))) as [c [Hc ->]].
    cbn [deref]. cbn [row fst snd]. destruct (N.leb_spec round (f_round c)) as [Hle|Hgt].
    + rewrite (proj2 (q_read (f_dig c) c)); [|auto]. rewrite El. exists (c :: l). split; auto. split.
      * constructor; auto. apply Forall_forall. intros c' Hc'. apply Hm in Hc' as [_ [_ Hr]].
        specialize (Hf _ Hr). apply plt_spec in Hf. exact Hf.
      * intros c'. cbn. rewrite Hm. split.
        -- intros [<-|[A [B C]]]; auto.
        -- intros [A [B [C|C]]]; auto. left. apply (i_eq _ _ HI); auto. unfold row in C. congruence.
    + exists l. split; auto. split; auto. intros c'. rewrite Hm. cbn. split; [tauto|].
      intros [A [B [C|C]]]; auto. exfalso. unfold row in C. injection C as C1 C2 C3. lia.
Qed.
Lemma q_after_round round : exists l, cs_after_round round s = Some l /\ StronglySorted slot_lt l /\
  forall c, In c l <-> P c /\ round <= f_round c.
Proof.
  unfold cs_after_round. destruct (deref_spec round (rows_from round s)) as [l [E [Hs Hm]]].
  - apply rows_from_sorted.
  - intros x Hx. apply rows_from_In in Hx. tauto.
  - exists l. split; auto. split; auto. intros c. rewrite Hm. split; [tauto|]. intros [A B]. split; auto. split; auto.
    apply rows_from_In. split; [apply (i_r _ _ HI); exists c; auto|]. cbn. lia.
Qed.
Lemma q_origins_sorted round : StronglySorted pl (cs_origins_after round s).
Proof. unfold cs_origins_after. apply psorted_filter, rows_from_sorted. Qed.
Lemma q_origins round r o : In (r, o) (cs_origins_after round s) <->
  round <= r /\ exists c, P c /\ f_round c = r /\ f_origin c = o.
Proof.
  unfold cs_origins_after. rewrite in_map_iff. split.
  - intros [x [E Hx]]. apply filter_In in Hx as [Hx Hr]. apply rows_from_In in Hx as [Hx _].
    apply (i_r _ _ HI) in Hx as [c [Hc ->]]. cbn in *. injection E as <- <-. split; [lia|]. exists c. auto.
  - intros [Hr [c [Hc [<- <-]]]]. exists (row c). split; auto. apply filter_In. cbn. split; [|lia].
    apply rows_from_In. split; [apply (i_r _ _ HI); exists c; auto|]. cbn. lia.
Qed.
Lemma rows_nonempty : cs_round s = [] <-> forall c, ~ P c.
Proof.
  split.
  - intros E c Hc. assert (H : In (row c) (cs_round s)) by (apply (i_r _ _ HI); exists c; auto). rewrite E in H. destruct H.
  - intros H. destruct (cs_round s) as [|x l] eqn:E; auto. exfalso.
    assert (Hx : In x (cs_round s)) by (rewrite E; left; auto). apply (i_r _ _ HI) in Hx as [c [Hc _]]. apply (H c Hc).
Qed.
Lemma q_highest : (forall c, P c -> f_round c <= cs_highest s) /\
  ((exists c, P c /\ f_round c = cs_highest s) \/ ((forall c, ~ P c) /\ cs_highest s = 0)).
Proof.
  unfold cs_highest. destruct (rev (cs_round s)) as [|x l] eqn:E.
  - assert (E0 : cs_round s = []) by (rewrite <- (rev_involutive (cs_round s)), E; auto).
    pose proof (proj1 rows_nonempty E0) as Hn. split; [intros c Hc; destruct (Hn c Hc)|]. right. auto.
  - assert (E0 : cs_round s = rev l ++ [x]) by (rewrite <- (rev_involutive (cs_round s)), E; auto).
    assert (Hx : In x (cs_round s)) by (rewrite E0; apply in_app_iff; right; left; auto).
    pose proof Hx as Hx0. apply (i_r _ _ HI) in Hx as [cx [Hc ->]]. cbn [row fst]. split; [|left; exists cx; auto].
    intros c Hp. assert (Hr : In (row c) (cs_round s)) by (apply (i_r _ _ HI); exists c; auto).
    rewrite E0 in Hr. apply in_app_iff in Hr as [Hr|[Hr|[]]].
    + pose proof (i_rs _ _ HI) as Hsort. rewrite E0 in Hsort. clear -Hsort Hr.
      induction (rev l) as [|y m IH]; [destruct Hr|]. cbn [app] in Hsort. apply psorted_cons in Hsort as [Hs Hf].
      destruct Hr as [->|Hr]; auto. assert (H : pl (fst (row c)) (fst (row cx))).
      { apply Hf. apply in_app_iff. right; left; auto. }
      apply plt_spec in H. cbn in H. lia.
    + unfold row in Hr. injection Hr as H1 H2 H3. lia.
Qed.
(** rows from the last to the first *)
Lemma last_two_spec rows : (forall x, In x rows -> In x (cs_round s)) ->
  StronglySorted (fun a b => pl (fst b) (fst a)) rows ->
  forall h, (forall x, In x rows -> fst (fst x) <= h) ->
  exists l, last_two rows h s = Some l /\ StronglySorted (fun a b => slot_lt b a) l /\
    forall c, In c l <-> P c /\ In (row c) rows /\
      (h = 0 \/ h - 1 <= f_round c).
Proof.
  induction rows as [|x rows IH]; intros Hin Hs h Hh.
  - exists []. split; auto. split; [constructor|]. intros c; cbn. tauto.
  - inversion Hs as [|? ? Hs' Hf]; subst. rewrite Forall_forall in Hf.
    destruct (proj1 (i_r _ _ HI x) (Hin x (or_introl eq_refl))) as [c [Hc ->]]. cbn [last_two row fst snd].
    destruct (N.eqb_spec h 0) as [->|Hn]; cbn [negb andb].
    + rewrite (proj2 (q_read (f_dig c) c)); [|auto].
      assert (Hz : f_round c = 0). { specialize (Hh (row c) (or_introl eq_refl)). cbn in Hh. lia. } rewrite Hz.
      destruct (IH (fun y Hy => Hin y (or_intror Hy)) Hs' 0) as [l [El [Hl Hm]]]; [intros y Hy; apply Hh; right; auto|].
      rewrite El. exists (c :: l). split; auto. split.
      * constructor; auto. apply Forall_forall. intros c' Hc'. apply Hm in Hc' as [_ [Hr _]].
        specialize (Hf _ Hr). apply plt_spec in Hf. exact Hf.
      * intros c'. cbn. rewrite Hm. split.
        -- intros [<-|[A [B C]]]; auto.
        -- intros [A [[B|B] C]]; auto. left. apply (i_eq _ _ HI); auto. unfold row in B. congruence.
    + destruct (N.ltb_spec (f_round c) (h - 1)) as [Hlt|Hge].
      * exists []. split; auto. split; [constructor|]. intros c'. cbn. split; [tauto|].
        intros [A [[B|B] C]].
        -- unfold row in B. injection B as B1 B2 B3. lia.
        -- specialize (Hf _ B). apply plt_spec in Hf. cbn in Hf. lia.
      * rewrite (proj2 (q_read (f_dig c) c)); [|auto].
        destruct (IH (fun y Hy => Hin y (or_intror Hy)) Hs' h) as [l [El [Hl Hm]]]; [intros y Hy; apply Hh; right; auto|].
        rewrite El. exists (c :: l). split; auto. split.
        -- constructor; auto. apply Forall_forall. intros c' Hc'. apply Hm in Hc' as [_ [Hr _]].
           specialize (Hf _ Hr). apply plt_spec in Hf. exact Hf.
        -- intros c'. cbn. rewrite Hm. split.
           ++ intros [<-|[A [B C]]]; auto.
           ++ intros [A [[B|B] C]]; auto. left. apply (i_eq _ _ HI); auto. unfold row in B. congruence.
Qed.
Lemma rev_rows_sorted : StronglySorted (fun a b : pkey * N => pl (fst b) (fst a)) (rev (cs_round s)).
Proof.
  pose proof (i_rs _ _ HI) as H. induction (cs_round s) as [|x m IH]; [constructor|].
  apply psorted_cons in H as [Hs Hf]. cbn [rev]. specialize (IH Hs).
  assert (Hf' : forall y, In y (rev m) -> pl (fst x) (fst y)) by (intros y Hy; apply Hf, in_rev; auto).
  clear Hs Hf. induction (rev m) as [|y l IHl]; cbn [app].
  - repeat constructor.
  - inversion IH as [|? ? Hs2 Hf2]; subst. constructor.
    + apply IHl; auto. intros z Hz. apply Hf'. right; auto.
    + apply Forall_app. split; auto. constructor; auto. apply Hf'. left; auto.
Qed.
Lemma q_last_two : exists l, cs_last_two s = Some l /\ StronglySorted (fun a b => slot_lt b a) l /\
  forall c, In c l <-> P c /\ cs_highest s <= f_round c + 1.
Proof.
  unfold cs_last_two. destruct (rev (cs_round s)) as [|x rows] eqn:E.
  - exists []. split; auto. split; [constructor|]. intros c. cbn.
    assert (E0 : cs_round s = []) by (rewrite <- (rev_involutive (cs_round s)), E; auto).
    pose proof (proj1 rows_nonempty E0 c). tauto.
  - assert (Hin : forall y, In y (x :: rows) -> In y (cs_round s)).
    { intros y Hy. rewrite <- E in Hy. apply in_rev; auto. }
    assert (Hall : forall c, P c -> In (row c) (x :: rows)).
    { intros c Hc. rewrite <- E. apply in_rev. rewrite rev_involutive. apply (i_r _ _ HI). exists c; auto. }
    assert (Hh : cs_highest s = fst (fst x)) by (unfold cs_highest; rewrite E; auto).
    pose proof rev_rows_sorted as Hs. rewrite E in Hs. pose proof Hs as Hs0. inversion Hs as [|? ? Hs' Hf]; subst.
    rewrite Forall_forall in Hf.
    destruct (proj1 (i_r _ _ HI x) (Hin x (or_introl eq_refl))) as [cx [Hc Ex]]. subst x.
    assert (Hmax : forall y, In y rows -> fst (fst y) <= f_round cx).
    { intros y Hy. specialize (Hf y Hy). apply plt_spec in Hf. cbn in Hf. lia. }
    cbn [last_two row fst snd]. cbn [N.eqb negb andb]. rewrite (proj2 (q_read (f_dig cx) cx)); [|auto].
    destruct (last_two_spec rows (fun y Hy => Hin y (or_intror Hy)) Hs' (f_round cx) Hmax) as [l [El [Hl Hm]]].
    rewrite El. exists (cx :: l). split; auto. split.
    + constructor; auto. apply Forall_forall. intros c' Hc'. apply Hm in Hc' as [_ [Hr _]].
      specialize (Hf _ Hr). apply plt_spec in Hf. exact Hf.
    + intros c. cbn. rewrite Hm, Hh. cbn [row fst]. split.
      * intros [<-|[A [B C]]]; [split; auto; lia|split; auto; lia].
      * intros [A B]. destruct (Hall c A) as [C|C].
        -- left. apply (i_eq _ _ HI); auto. unfold row in C. congruence.
        -- right. split; auto. split; auto. lia.
Qed.
Lemma prior_max o : match pt_prior (o, U32MAX) None (cs_origin s) with
  | None => forall c, P c -> f_origin c <> o
  | Some x => if fst (fst x) =? o then exists c, P c /\ x = orow c /\ f_origin c = o /\
                   (forall c', P c' -> f_origin c' = o -> f_round c' <= f_round c)
              else forall c, P c -> f_origin c <> o
  end.
Proof.
  pose proof (pt_prior_spec (o, U32MAX) (cs_origin s) (i_os _ _ HI) None I) as H.
  assert (Hk : forall c, P c -> f_origin c = o -> plt (fst (orow c)) (o, U32MAX) = true).
  { intros c Hc Ho. apply plt_spec. cbn. right. split; auto. apply (i_fit _ _ HI); auto. }
  destruct (pt_prior (o, U32MAX) None (cs_origin s)) as [x|].
  - destruct H as [[E|Hx] [Hxk Hm]]; [discriminate E|]. apply (i_o _ _ HI) in Hx as [c [Hc ->]].
    cbn [orow fst]. destruct (N.eqb_spec (f_origin c) o) as [Ho|Ho].
    + exists c. split; auto. split; auto. split; auto. intros c' Hc' Ho'.
      destruct (Hm (orow c')) as [E|E].
      * apply (i_o _ _ HI). exists c'; auto.
      * auto.
      * unfold orow in E. injection E as E1 E2 E3. lia.
      * apply plt_spec in E. cbn in E. lia.
    + intros c' Hc' Ho'. destruct (Hm (orow c')) as [E|E].
      * apply (i_o _ _ HI). exists c'; auto.
      * auto.
      * unfold orow in E. injection E as E1 E2 E3. congruence.
      * apply plt_spec in E, Hxk. cbn in E, Hxk. lia.
  - destruct H as [_ H]. intros c Hc Ho. specialize (Hk c Hc Ho).
    rewrite (H (orow c)) in Hk; [discriminate Hk|]. apply (i_o _ _ HI). exists c; auto.
Qed.
Lemma q_last_number o : match cs_last_number o s with
  | Some r => (exists c, P c /\ f_origin c = o /\ f_round c = r) /\ forall c, P c -> f_origin c = o -> f_round c <= r
  | None => forall c, P c -> f_origin c <> o
  end.
Proof.
  unfold cs_last_number. pose proof (prior_max o) as H. destruct (pt_prior (o, U32MAX) None (cs_origin s)) as [x|]; auto.
  destruct (fst (fst x) =? o); auto. destruct H as [c [Hc [-> [Ho Hm]]]]. cbn. split; auto. exists c; auto.
Qed.
Lemma q_last_round o : match cs_last_round o s with
  | Some c => P c /\ f_origin c = o /\ forall c', P c' -> f_origin c' = o -> f_round c' <= f_round c
  | None => forall c, P c -> f_origin c <> o
  end.
Proof.
  unfold cs_last_round. pose proof (prior_max o) as H. destruct (pt_prior (o, U32MAX) None (cs_origin s)) as [x|]; auto.
  destruct (fst (fst x) =? o); auto. destruct H as [c [Hc [-> [Ho Hm]]]]. cbn [orow snd].
  rewrite (proj2 (q_read (f_dig c) c)); auto.
Qed.
Lemma q_next o r : r < U32MAX -> match cs_next_number o r s with
  | Some r' => r < r' /\ (exists c, P c /\ f_origin c = o /\ f_round c = r') /\
               forall c, P c -> f_origin c = o -> r < f_round c -> r' <= f_round c
  | None => forall c, P c -> f_origin c = o -> f_round c <= r
  end.
Proof.
  intros Hr. unfold cs_next_number. rewrite N.mod_small; [|lia].
  pose proof (pt_skip_to_sorted (o, r + 1) _ (i_os _ _ HI)) as Hs.
  pose proof (fun x => pt_skip_to_In (o, r + 1) (cs_origin s) x (i_os _ _ HI)) as Hin.
  assert (Hk : forall c, P c -> f_origin c = o -> r < f_round c -> In (orow c) (pt_skip_to (o, r + 1) (cs_origin s))).
  { intros c Hc Ho Hlt. apply Hin. split; [apply (i_o _ _ HI); exists c; auto|]. apply plt_spec_f. cbn. lia. }
  destruct (pt_skip_to (o, r + 1) (cs_origin s)) as [|x m].
  - intros c Hc Ho. destruct (N.le_gt_cases (f_round c) r) as [|Hgt]; auto. destruct (Hk c Hc Ho Hgt).
  - destruct (proj1 (Hin x) (or_introl eq_refl)) as [Hx Hxk]. apply (i_o _ _ HI) in Hx as [c [Hc ->]].
    apply psorted_cons in Hs as [Hs Hf]. apply plt_spec_f in Hxk. cbn [orow fst snd] in *.
    destruct (N.eqb_spec (f_origin c) o) as [Ho|Ho].
    + split; [lia|]. split; [exists c; auto|]. intros c' Hc' Ho' Hlt. destruct (Hk c' Hc' Ho' Hlt) as [E|E].
      * unfold orow in E. injection E as E1 E2 E3. lia.
      * specialize (Hf _ E). apply plt_spec in Hf. cbn in Hf. lia.
    + intros c' Hc' Ho'. destruct (N.le_gt_cases (f_round c') r) as [|Hgt]; auto. exfalso.
      destruct (Hk c' Hc' Ho' Hgt) as [E|E].
      * unfold orow in E. injection E as E1 E2 E3. congruence.
      * specialize (Hf _ E). apply plt_spec in Hf. cbn in Hf. lia.
Qed.
End Queries.
