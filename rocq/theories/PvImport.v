(** Proofs for C62: the validator and the importer. *)
From Verif Require Import Util OutModel OutSpec OutProofs ImpModel ImpSpec ImpProofs PvModel PvSpec PvProofs PvWalk PvReport.
Local Open Scope N_scope.

(** A stretch of batch records, then something else. *)
Fixpoint lead (l : list rec) : list N := match l with RBatch b :: t => b :: lead t | _ => [] end.
Fixpoint after (l : list rec) : list rec := match l with RBatch _ :: t => after t | _ => l end.
Definition no_lead (l : list rec) : Prop := forall b t, l <> RBatch b :: t.
Lemma lead_after l : l = map RBatch (lead l) ++ after l.
Proof. induction l as [|[m|h|b|] t IH]; simpl; auto. congruence. Qed.
Lemma after_no l : no_lead (after l).
Proof. induction l as [|[m|h|b|] t IH]; simpl; auto; intros b' t' E; discriminate E. Qed.
Lemma lead_app bs l : no_lead l -> lead (map RBatch bs ++ l) = bs /\ after (map RBatch bs ++ l) = l.
Proof.
  intros H. induction bs as [|b bs IH]; simpl.
  - destruct l as [|[m|h|b|] t]; auto. exfalso. eapply H; eauto.
  - destruct IH as [-> ->]. auto.
Qed.
Lemma batches_no_header bs : no_header (map RBatch bs).
Proof. intros h C. apply in_map_iff in C. destruct C as [b [E _]]. discriminate E. Qed.

(** A stretch without header lies on one side of a header. *)
Lemma stretch_side x : forall h y a g b, x ++ RHeader h :: y = a ++ g ++ b -> no_header g ->
  g = [] \/ (exists b', x = a ++ g ++ b') \/ exists a', y = a' ++ g ++ b.
Proof.
  induction x as [|r x IH]; intros h y a g b E Hg.
  - destruct a as [|r a].
    + destruct g as [|r g]; [auto|]. simpl in E. injection E as <- _. exfalso. apply (Hg h). simpl; auto.
    + simpl in E. injection E as _ E. eauto.
  - destruct a as [|r' a].
    + destruct g as [|r' g]; [auto|]. simpl in E. injection E as <- E.
      assert (Hg' : no_header g) by (apply no_header_cons in Hg; tauto).
      destruct (IH h y [] g b E Hg') as [->|[[b' Eb]|[a' Ea]]].
      * right. left. exists x. auto.
      * right. left. simpl in Eb. exists b'. simpl. congruence.
      * right. left. exfalso. clear IH.
        (* g starts at the front of x, so it cannot also lie after the header *)
        simpl in E. rewrite Ea in E. apply (f_equal (@length rec)) in E. rewrite !app_length in E. simpl in E. rewrite !app_length in E. lia.
    + simpl in E. injection E as <- E. destruct (IH h y a g b E Hg) as [->|[[b' Eb]|[a' Ea]]]; auto.
      * right. left. exists b'. simpl. congruence.
      * right. right. eauto.
Qed.

Section P.
Variable bd : N -> N.
Variable hd : N -> subdag -> N -> N.
Variable dec : N -> emeta.
Variable idof : N -> N.
Variable per_auth : nat.
Notation read_output := (read_output bd hd idof per_auth).
Notation addr_of := (addr_of idof).
Notation digs := (digs bd).
Notation clean := (clean bd hd).
Notation ep := (expected_parent hd).

Lemma digs_batches bs : digs (map RBatch bs) = map bd bs.
Proof. induction bs as [|b bs IH]; simpl; auto. f_equal. exact IH. Qed.

(** The two layouts.  [Q] is a condition on each group, [T] on what trails the last header. *)
Inductive layout0 (Q : chdr -> list N -> Prop) (T : list N -> Prop) : option N -> N -> list rec -> Prop :=
| L0end e n bs : T bs -> layout0 Q T e n (map RBatch bs)
| L0cons e n bs h rest :
    (forall p, e = Some p -> ch_parent h = p) -> ch_num h = n ->
    (forall d, In d (named (ch_sub h)) <-> In d (map bd bs)) -> Q h bs ->
    layout0 Q T (Some (digest_of hd h)) (n + 1) rest -> layout0 Q T e n (map RBatch bs ++ RHeader h :: rest).
Inductive layout1 (Q : chdr -> list N -> Prop) : option N -> N -> list rec -> Prop :=
| L1end e n : layout1 Q e n []
| L1cons e n h bs rest :
    (forall p, e = Some p -> ch_parent h = p) -> ch_num h = n ->
    map bd bs = batch_set (ch_sub h) -> Q h bs -> no_lead rest ->
    layout1 Q (Some (digest_of hd h)) (n + 1) rest -> layout1 Q e n (RHeader h :: map RBatch bs ++ rest).

(** What a header after [l ++ a] is compared with. *)
Lemma ep_other anchor l r p : is_header r = false -> (ep anchor (l ++ [r]) p <-> ep anchor l p).
Proof.
  intros Hr. unfold expected_parent.
  assert (Hr' : no_header [r]) by (apply no_header_cons; split; auto; intros h []). split.
  - intros [[a1 [g [a2 [E [H ->]]]]]|[H E]].
    + left. destruct (split_snoc _ _ _ _ _ E) as [[_ [_ ->]]|[b' [-> ->]]]; [discriminate Hr|].
      apply no_header_app in H. destruct H as [H _]. eauto 10.
    + right. apply no_header_app in H. tauto.
  - intros [[a1 [g [a2 [-> [H ->]]]]]|[H E]].
    + left. exists a1, g, (a2 ++ [r]). rewrite <- app_assoc. split; auto. split; auto. apply no_header_app; auto.
    + right. split; auto. apply no_header_app; auto.
Qed.
Lemma ep_header anchor l h p : ep anchor (l ++ [RHeader h]) p <-> p = digest_of hd h.
Proof. rewrite <- (parent_snoc_header hd anchor l h p). split; [intros E; injection E; auto|intros ->; auto]. Qed.
Lemma ep_nil anchor p : ep anchor [] p <-> anchor = Some p.
Proof. symmetry. apply (parent_nil hd anchor p). Qed.
Lemma ep_shift anchor l h a p : ep anchor (l ++ RHeader h :: a) p <-> ep (Some (digest_of hd h)) a p.
Proof.
  induction a as [|r a IH] using rev_ind.
  - rewrite ep_header, ep_nil. split; [intros ->; auto|intros E; injection E; auto].
  - replace (l ++ RHeader h :: a ++ [r]) with ((l ++ RHeader h :: a) ++ [r]) by (rewrite <- app_assoc; auto).
    destruct (is_header r) eqn:R.
    + destruct r as [m|g|b|]; try discriminate R. rewrite !ep_header. tauto.
    + rewrite !ep_other by auto. exact IH.
Qed.

Lemma rank_app a b : N.of_nat (length (filter is_header (a ++ b))) = N.of_nat (length (filter is_header a)) + N.of_nat (length (filter is_header b)).
Proof. rewrite filter_app, app_length. lia. Qed.
Lemma rank_batches bs : N.of_nat (length (filter is_header (map RBatch bs))) = 0.
Proof. induction bs as [|b bs IH]; simpl; auto. Qed.
Lemma rank_no a : no_header a -> N.of_nat (length (filter is_header a)) = 0.
Proof.
  induction a as [|r a IH]; intros H; simpl; auto. apply no_header_cons in H. destruct H as [-> H]. auto.
Qed.

(* ---------- version 1 ---------- *)
Definition plain (l : list rec) : Prop := (forall y, ~ In (RMeta y) l) /\ ~ In RBad l.
Lemma plain_app a b : plain (a ++ b) <-> plain a /\ plain b.
Proof.
  unfold plain. split.
  - intros [A B]. split; split.
    + intros y C. apply (A y), in_app_iff. auto.
    + intros C. apply B, in_app_iff. auto.
    + intros y C. apply (A y), in_app_iff. auto.
    + intros C. apply B, in_app_iff. auto.
  - intros [[A B] [C D]]. split; [intros y E|intros E]; apply in_app_iff in E; destruct E; [eapply A|eapply C|apply B|apply D]; eauto.
Qed.
Lemma plain_cons r l : plain (r :: l) -> plain l.
Proof. intros H. apply (plain_app [r] l) in H. tauto. Qed.
Lemma plain_batches bs : plain (map RBatch bs).
Proof. split; [intros y C|intros C]; apply in_map_iff in C; destruct C as [b [E _]]; discriminate E. Qed.
Lemma plain_after l : plain l -> after l = [] \/ exists h t, after l = RHeader h :: t.
Proof.
  intros H. rewrite (lead_after l) in H. apply plain_app in H. destruct H as [_ H]. pose proof (after_no l) as A.
  destruct (after l) as [|[m|h|b|] t]; auto.
  - exfalso. destruct H as [H _]. apply (H m). simpl; auto.
  - right. eauto.
  - exfalso. eapply A; eauto.
  - exfalso. destruct H as [_ H]. apply H. simpl; auto.
Qed.

Lemma clean_layout1 ver (Q : chdr -> list N -> Prop) : ver <> 0 -> forall k l e n, (length l < k)%nat -> plain l -> no_lead l -> clean ver n e l ->
  (forall a h b, l = a ++ RHeader h :: b -> Q h (lead b)) -> layout1 Q e n l.
Proof.
  intros Hv. induction k as [|k IH]; intros l e n Hk Hp Hl Hc HQ; [lia|].
  destruct l as [|r t]; [constructor|].
  destruct r as [m|h|b|]; try (exfalso; destruct Hp as [A B]; first [apply (A m); left; reflexivity|apply B; left; reflexivity|eapply Hl; reflexivity]).
  destruct (Hc [] h t eq_refl) as [C1 [C2 [C3 C4]]]. specialize (C4 Hv).
  rewrite (grp_ver ver _ _ Hv) in C3, C4. unfold grp in C3, C4. cbn [N.eqb has_header app] in C3, C4.
  assert (Hh : headr t = map RBatch (lead t)).
  { rewrite (lead_after t) at 1. rewrite headr_pre by apply batches_no_header.
    destruct (plain_after t (plain_cons _ _ Hp)) as [->|[g [u ->]]]; simpl; apply app_nil_r. }
  rewrite Hh, digs_batches in C3, C4.
  rewrite (lead_after t). constructor.
  - intros p ->. apply C2, ep_nil. auto.
  - rewrite C1. simpl. lia.
  - apply sorted_ext; auto; [apply batch_set_sorted|]. intros d. rewrite batch_set_in, C3. tauto.
  - apply (HQ [] h t eq_refl).
  - apply after_no.
  - assert (Len : (length (after t) <= length t)%nat) by (rewrite (lead_after t) at 2; rewrite app_length; lia).
    apply IH; [simpl in Hk; lia| |apply after_no| |].
    + apply plain_cons in Hp. rewrite (lead_after t) in Hp. apply plain_app in Hp. tauto.
    + intros a h' b E. destruct (Hc (RHeader h :: map RBatch (lead t) ++ a) h' b) as [D1 [D2 [D3 D4]]].
      { rewrite (lead_after t) at 1. rewrite E. simpl. rewrite <- app_assoc. auto. }
      split; [|split; [|]].
      * rewrite D1. cbn [filter is_header length]. rewrite filter_app, app_length. pose proof (rank_batches (lead t)). lia.
      * intros p P. apply D2. apply (ep_shift e [] h). 
        revert P. generalize (lead t) as bs. intros bs P. clear - P bd hd dec idof per_auth.
        induction a as [|r a IHa] using rev_ind in P |- *.
        -- rewrite app_nil_r. apply ep_nil in P. injection P as <-. right. split; [apply batches_no_header|auto].
        -- rewrite app_assoc. destruct (is_header r) eqn:R.
           ++ destruct r as [m|g|b|]; try discriminate R. rewrite ep_header in *. auto.
           ++ rewrite ep_other in * by auto. auto.
      * rewrite !(grp_ver ver _ _ Hv) in *. unfold grp in *. cbn [N.eqb has_header is_header orb app] in *.
        destruct (has_header a) eqn:Ha; [auto|]. apply has_header_false in Ha.
        destruct a as [|r a]; [auto|]. exfalso. destruct (plain_after t (plain_cons _ _ Hp)) as [Z|[g [u Z]]]; rewrite Z in E.
        -- discriminate E.
        -- injection E as <- _. apply (Ha g). simpl; auto.
    + intros a h' b E. apply (HQ (RHeader h :: map RBatch (lead t) ++ a)). rewrite (lead_after t) at 1. rewrite E. simpl. rewrite <- app_assoc. auto.
Qed.

(** The split of a laid out file at a header. *)
Lemma layout1_split Q e n l : layout1 Q e n l -> plain l /\ no_lead l /\
  forall a h b, l = a ++ RHeader h :: b -> exists e', (forall p, ep e a p -> e' = Some p) /\
    (a = [] \/ has_header a = true) /\ layout1 Q e' (n + N.of_nat (length (filter is_header a))) (RHeader h :: b).
Proof.
  induction 1 as [e n|e n h bs rest P1 P2 P3 P4 P5 L [IHa [IHb IH]]].
  - split; [split; [intros y []|intros []]|]. split; [intros b t E; discriminate E|]. intros [|? ?] h b E; discriminate E.
  - split; [|split; [intros b t E; discriminate E|]].
    { apply (plain_app [RHeader h]). split; [split; [intros y [C|[]]; discriminate C|intros [C|[]]; discriminate C]|].
      apply plain_app. split; auto. apply plain_batches. }
    intros a g b E. destruct a as [|r a].
    + injection E as -> <-. exists e. split; [intros p; apply ep_nil|]. split; auto. simpl. replace (n + 0) with n by lia.
      constructor; auto.
    + simpl in E. injection E as <- E.
      assert (S : exists a', a = map RBatch bs ++ a' /\ rest = a' ++ RHeader g :: b).
      { clear - E. revert a E. induction bs as [|x bs IH]; intros a E; [exists a; auto|]. destruct a as [|r a]; [discriminate E|].
        simpl in E. injection E as <- E. destruct (IH a E) as [a' [-> ->]]. exists a'. auto. }
      destruct S as [a' [-> Er]]. destruct (IH a' g b Er) as [e' [E1 [E2 E3]]]. exists e'. split; [|split; [simpl; auto|]].
      * intros p Hp. apply E1. apply (ep_shift e [] h) in Hp. revert Hp. clear - bd hd dec idof per_auth.
        induction a' as [|r a IHa] using rev_ind.
        -- rewrite app_nil_r. intros Hp. apply ep_nil. destruct Hp as [[a1 [g [a2 [E _]]]]|[_ E]]; auto.
           exfalso. apply (batches_no_header bs g). rewrite E. apply in_app_iff; simpl; auto.
        -- rewrite app_assoc. destruct (is_header r) eqn:R.
           ++ destruct r as [m|k|c|]; try discriminate R. rewrite !ep_header. auto.
           ++ rewrite !ep_other by auto. auto.
      * replace (n + N.of_nat (length (filter is_header (RHeader h :: map RBatch bs ++ a'))))
          with (n + 1 + N.of_nat (length (filter is_header a'))); auto.
        cbn [filter is_header length]. rewrite filter_app, app_length. pose proof (rank_batches bs). lia.
Qed.
Lemma layout1_clean ver Q e n l : ver <> 0 -> layout1 Q e n l ->
  plain l /\ no_lead l /\ clean ver n e l /\ forall a h b, l = a ++ RHeader h :: b -> Q h (lead b).
Proof.
  intros Hv L. destruct (layout1_split _ _ _ _ L) as [A [B C]]. split; auto. split; auto.
  assert (Main : forall a h b, l = a ++ RHeader h :: b -> exists bs e', (forall p, ep e a p -> e' = Some p) /\
     (forall p, e' = Some p -> ch_parent h = p) /\ ch_num h = n + N.of_nat (length (filter is_header a)) /\
     (a = [] \/ has_header a = true) /\ map bd bs = batch_set (ch_sub h) /\ Q h bs /\ lead b = bs /\ headr b = map RBatch bs).
  { intros a h b E. destruct (C a h b E) as [e' [E1 [E2 E3]]]. inversion E3 as [|e1 n1 h1 bs rest P1 P2 P3 P4 P5 L1]; subst.
    exists bs, e'. repeat (split; auto).
    - apply (lead_app bs rest P5).
    - rewrite headr_pre by apply batches_no_header. inversion L1; subst; simpl; apply app_nil_r. }
  split.
  - intros a h b E. destruct (Main a h b E) as [bs [e' [E1 [E2 [E3 [E4 [E5 [E6 [E7 E8]]]]]]]]].
    assert (G : digs (grp ver a b) = batch_set (ch_sub h)).
    { rewrite (grp_ver ver _ _ Hv). unfold grp. cbn [N.eqb]. rewrite E8.
      destruct E4 as [->| ->]; cbn [has_header app]; rewrite digs_batches; auto. }
    rewrite G. split; auto. split; [intros p Hp; auto|]. split; [intros d; rewrite batch_set_in; tauto|intros _; apply batch_set_sorted].
  - intros a h b E. destruct (Main a h b E) as [bs [e' [E1 [E2 [E3 [E4 [E5 [E6 [E7 E8]]]]]]]]]. rewrite E7. auto.
Qed.

(* ---------- version 0 ---------- *)
Definition tail_lead (a : list rec) : list N := lead (tailr a).
Lemma plain_batch_only l : plain l -> no_header l -> l = map RBatch (lead l).
Proof.
  intros Hp Hn. rewrite (lead_after l) at 1. destruct (plain_after l Hp) as [->|[h [t E]]]; [apply app_nil_r|].
  exfalso. apply (Hn h). rewrite (lead_after l), E. apply in_app_iff. simpl; auto.
Qed.
Lemma clean_layout0 (Q : chdr -> list N -> Prop) (T : list N -> Prop) : forall k l e n, (length l < k)%nat -> plain l -> clean 0 n e l ->
  (forall a h b, l = a ++ RHeader h :: b -> Q h (tail_lead a)) ->
  T (tail_lead l) -> layout0 Q T e n l.
Proof.
  induction k as [|k IH]; intros l e n Hk Hp Hc HQ HT; [lia|].
  destruct (plain_after l Hp) as [E|[h [t E]]].
  - pose proof (lead_after l) as El. rewrite E, app_nil_r in El. rewrite El. constructor.
    unfold tail_lead in HT. rewrite tailr_all in HT; auto. rewrite El. apply batches_no_header.
  - pose proof (lead_after l) as El. rewrite E in El. set (bs := lead l) in *. clearbody bs. clear E. subst l.
    destruct (Hc (map RBatch bs) h t eq_refl) as [C1 [C2 [C3 _]]].
    unfold grp in C3. cbn [N.eqb] in C3. rewrite (tailr_all _ (batches_no_header bs)), digs_batches in C3.
    pose proof (HQ (map RBatch bs) h t eq_refl) as Qh. unfold tail_lead in Qh.
    rewrite (tailr_all _ (batches_no_header bs)) in Qh.
    destruct (lead_app bs []) as [Lb _]; [intros ? ? Z; discriminate Z|]. rewrite app_nil_r in Lb. rewrite Lb in Qh.
    rewrite rank_batches in C1.
    assert (Tl : forall a, tailr (map RBatch bs ++ RHeader h :: a) = tailr a).
    { intros a. destruct (tailr_split a) as [[Na ->]|[a1 [g Ea]]].
      - rewrite tailr_post; auto.
      - rewrite Ea at 1. replace (map RBatch bs ++ RHeader h :: a1 ++ RHeader g :: tailr a) with ((map RBatch bs ++ RHeader h :: a1) ++ RHeader g :: tailr a) by (rewrite <- app_assoc; auto).
        apply tailr_post, tailr_no. }
    constructor; auto.
    + intros p ->. apply C2. right. split; [apply batches_no_header|auto].
    + lia.
    + rewrite app_length in Hk. cbn [length] in Hk. apply IH; [lia| | | |].
      * apply plain_app in Hp. destruct Hp as [_ Hp]. apply plain_cons in Hp. auto.
      * intros a h' b E. destruct (Hc (map RBatch bs ++ RHeader h :: a) h' b) as [D1 [D2 [D3 _]]].
        { rewrite E, <- app_assoc. auto. }
        split; [|split; [|split; [|congruence]]].
        -- rewrite D1, rank_app, rank_batches. cbn [filter is_header length]. lia.
        -- intros p P. apply D2. apply ep_shift. auto.
        -- unfold grp in *. cbn [N.eqb] in *. rewrite Tl in D3. auto.
      * intros a h' b E. pose proof (HQ (map RBatch bs ++ RHeader h :: a) h' b) as Z. unfold tail_lead in *. rewrite Tl in Z. apply Z. rewrite E, <- app_assoc. auto.
      * unfold tail_lead in *. rewrite Tl in HT. auto.
Qed.
Lemma layout0_clean Q T e n l : layout0 Q T e n l ->
  plain l /\ clean 0 n e l /\ (forall a h b, l = a ++ RHeader h :: b -> Q h (tail_lead a)) /\ T (tail_lead l).
Proof.
  assert (Lb : forall bs, lead (map RBatch bs) = bs).
  { intros bs. destruct (lead_app bs []) as [Z _]; [intros ? ? Y; discriminate Y|]. rewrite app_nil_r in Z. auto. }
  induction 1 as [e n bs Ht|e n bs h rest P1 P2 P3 P4 L [IHa [IHb [IHc IHd]]]].
  - assert (Z : forall a h b, map RBatch bs = a ++ RHeader h :: b -> False).
    { intros a h b E. apply (batches_no_header bs h). rewrite E. apply in_app_iff; simpl; auto. }
    split; [apply plain_batches|]. split; [intros a h b E; destruct (Z _ _ _ E)|]. split; [intros a h b E; destruct (Z _ _ _ E)|].
    unfold tail_lead. rewrite tailr_all by apply batches_no_header. rewrite Lb. auto.
  - assert (Tl : forall a, tailr (map RBatch bs ++ RHeader h :: a) = tailr a).
    { intros a. destruct (tailr_split a) as [[Na ->]|[a1 [g Ea]]].
      - rewrite tailr_post; auto.
      - rewrite Ea at 1. replace (map RBatch bs ++ RHeader h :: a1 ++ RHeader g :: tailr a) with ((map RBatch bs ++ RHeader h :: a1) ++ RHeader g :: tailr a) by (rewrite <- app_assoc; auto).
        apply tailr_post, tailr_no. }
    assert (Sp : forall a g b, map RBatch bs ++ RHeader h :: rest = a ++ RHeader g :: b ->
              (a = map RBatch bs /\ g = h /\ b = rest) \/ exists a', a = map RBatch bs ++ RHeader h :: a' /\ rest = a' ++ RHeader g :: b).
    { clear. intros a g b. revert a. induction bs as [|x bs IH]; intros a E.
      - destruct a as [|r a]; simpl in E; injection E as E1 E2; subst; [auto|]. right. exists a. auto.
      - destruct a as [|r a]; simpl in E; [discriminate E|]. injection E as <- E. destruct (IH a E) as [[-> [-> ->]]|[a' [-> ->]]]; [left; auto|right; exists a'; auto]. }
    split; [|split; [|split]].
    + apply plain_app. split; [apply plain_batches|]. apply (plain_app [RHeader h]). split; auto.
      split; [intros y [C|[]]; discriminate C|intros [C|[]]; discriminate C].
    + intros a g b E. destruct (Sp a g b E) as [[-> [-> ->]]|[a' [-> Er]]].
      * split; [rewrite rank_batches; lia|]. split; [|split; [|congruence]].
        -- intros p Hp. apply P1. destruct Hp as [[a1 [k [a2 [Z _]]]]|[_ Z]]; auto.
           exfalso. apply (batches_no_header bs k). rewrite Z. apply in_app_iff; simpl; auto.
        -- unfold grp. cbn [N.eqb]. rewrite tailr_all by apply batches_no_header. rewrite digs_batches. auto.
      * destruct (IHb a' g b Er) as [D1 [D2 [D3 _]]]. split; [|split; [|split; [|congruence]]].
        -- rewrite D1, rank_app, rank_batches. cbn [filter is_header length]. lia.
        -- intros p Hp. apply D2. apply ep_shift in Hp. auto.
        -- unfold grp in *. cbn [N.eqb] in *. rewrite Tl. auto.
    + intros a g b E. destruct (Sp a g b E) as [[-> [-> ->]]|[a' [-> Er]]].
      * unfold tail_lead. rewrite tailr_all by apply batches_no_header. rewrite Lb. auto.
      * unfold tail_lead. rewrite Tl. eapply IHc; eauto.
    + unfold tail_lead. rewrite Tl. exact IHd.
Qed.
End P.
