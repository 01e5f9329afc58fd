From Verif Require Import Util Types CommitteeModel CommitteeProofs CertModel LeaderModel LeaderProofs GasModel BullModel BullSpec BullProofs1.
Local Open Scope N_scope.

(* ---------- strictly decreasing round lists ---------- *)
Definition gtN (a b : N) : Prop := b < a.
Lemma desc_ext l1 l2 : StronglySorted gtN l1 -> StronglySorted gtN l2 ->
  (forall x, In x l1 <-> In x l2) -> l1 = l2.
Proof.
  revert l2. induction l1 as [|a l1 IH]; intros l2 S1 S2 H.
  - destruct l2 as [|b l2]; [reflexivity|]. exfalso. apply (H b). left. reflexivity.
  - destruct l2 as [|b l2]; [exfalso; apply (H a); left; reflexivity|].
    inversion S1 as [|? ? S1' F1]; inversion S2 as [|? ? S2' F2]; subst.
    rewrite Forall_forall in F1, F2. unfold gtN in *.
    assert (a = b).
    { destruct (proj1 (H a) (or_introl eq_refl)) as [E|E]; [auto|].
      destruct (proj2 (H b) (or_introl eq_refl)) as [E'|E']; [auto|].
      specialize (F1 _ E'). specialize (F2 _ E). lia. }
    subst b. f_equal. apply IH; [assumption|assumption|]. intros x. split; intros Hx.
    + destruct (proj1 (H x) (or_intror Hx)) as [E|E]; [|assumption]. subst. specialize (F1 _ Hx). lia.
    + destruct (proj2 (H x) (or_intror Hx)) as [E|E]; [|assumption]. subst. specialize (F2 _ Hx). lia.
Qed.

Lemma steps_In n hi r : 2 * N.of_nat n <= hi + 2 ->
  (In r (steps n hi) <-> exists k, (k < n)%nat /\ r = hi - 2 * N.of_nat k).
Proof.
  revert hi. induction n as [|n IH]; intros hi H; cbn [steps In].
  - split; [intros []|intros (k & L & _); lia].
  - destruct n as [|n].
    + cbn [steps In]. split.
      * intros [<-|[]]. exists 0%nat. split; lia.
      * intros (k & L & E). left. assert (k = 0)%nat by lia. subst. lia.
    + rewrite IH by lia. split.
      * intros [<-|(k & L & E)]; [exists 0%nat; split; lia|]. exists (S k). split; lia.
      * intros (k & L & E). destruct k as [|k]; [left; lia|]. right. exists k. split; lia.
Qed.
Lemma steps_sorted n hi : 2 * N.of_nat n <= hi + 2 -> StronglySorted gtN (steps n hi).
Proof.
  revert hi. induction n as [|n IH]; intros hi H; cbn [steps]; [constructor|].
  destruct n as [|n]; [constructor; constructor|]. constructor.
  - apply IH. lia.
  - apply Forall_forall. intros r Hr. apply steps_In in Hr as (k & L & E); [|lia]. unfold gtN. lia.
Qed.

Lemma step_rounds_sorted lo hi : StronglySorted gtN (step_rounds lo hi).
Proof.
  unfold step_rounds. destruct (N.ltb_spec hi lo); [constructor|].
  apply steps_sorted. pose proof (N.mul_div_le (hi - lo) 2). lia.
Qed.
Lemma step_rounds_In lo hi r : lo mod 2 = 0 -> hi mod 2 = 0 ->
  (In r (step_rounds lo hi) <-> lo <= r <= hi /\ r mod 2 = 0).
Proof.
  intros Hlo Hhi. unfold step_rounds. destruct (N.ltb_spec hi lo) as [L|L].
  - split; [intros []|lia].
  - assert (D : hi - lo = 2 * ((hi - lo) / 2)).
    { assert ((hi - lo) mod 2 = 0) by lia. lia. }
    rewrite steps_In by lia. split.
    + intros (k & Hk & E). lia.
    + intros [Hr Hm]. exists (N.to_nat ((hi - r) / 2)).
      assert (hi - r = 2 * ((hi - r) / 2)) by lia. split; lia.
Qed.
Lemma step_rounds_filter lo m hi : lo mod 2 = 0 -> hi mod 2 = 0 -> m mod 2 = 0 -> lo <= m + 2 ->
  filter (fun r => m <? r) (step_rounds lo hi) = step_rounds (m + 2) hi.
Proof.
  intros Hlo Hhi Hm Hle. apply desc_ext.
  - apply StronglySorted_filter. apply step_rounds_sorted.
  - apply step_rounds_sorted.
  - intros r. rewrite filter_In, !step_rounds_In, N.ltb_lt by lia. lia.
Qed.
Lemma step_rounds_split lo x hi : lo mod 2 = 0 -> hi mod 2 = 0 -> x mod 2 = 0 -> lo <= x -> x <= hi -> 2 <= x ->
  step_rounds lo hi = step_rounds (x + 2) hi ++ x :: step_rounds lo (x - 2).
Proof.
  intros Hlo Hhi Hx H1 H2 H3. apply desc_ext.
  - apply step_rounds_sorted.
  - assert (A : forall l1 l2, StronglySorted gtN l1 -> StronglySorted gtN l2 ->
                (forall a b, In a l1 -> In b l2 -> b < a) -> StronglySorted gtN (l1 ++ l2)).
    { intros l1 l2 S1 S2. induction S1 as [|a l1 S1 IH F]; intros H; [assumption|]. cbn [app]. constructor.
      - apply IH. intros; apply H; [right|]; assumption.
      - apply Forall_app. split; [assumption|]. apply Forall_forall. intros b Hb. apply H; [left; reflexivity|assumption]. }
    apply A.
    + apply step_rounds_sorted.
    + constructor; [apply step_rounds_sorted|]. apply Forall_forall. intros r Hr.
      apply step_rounds_In in Hr; [|lia|lia]. unfold gtN. lia.
    + intros a b Ha [<-|Hb].
      * apply step_rounds_In in Ha; lia.
      * apply step_rounds_In in Ha; [|lia|lia]. apply step_rounds_In in Hb; lia.
  - intros r. rewrite in_app_iff. cbn [In]. rewrite !step_rounds_In by lia.
    assert (r mod 2 = 0 -> r < x -> r <= x - 2) by lia.
    assert (r mod 2 = 0 -> x < r -> x + 2 <= r) by lia. lia.
Qed.

(* ---------- the walk over past leaders ---------- *)
Section Walk.
Variable choose : list authority -> N -> option authority.
Variable cm : committee.
Let walk := walk choose cm.

Definition hit (d : dag) (t : swap_table) (cur : cert) (r : N) (p : cert) : Prop :=
  exists a, leader cm choose t r = Some a /\ find_cert d r (a_id a) = Some p /\ linked d cur p = true.

(* the walk as a relation on the current leader *)
Inductive wrel (d : dag) (t : swap_table) : list N -> cert -> list cert -> list cert -> Prop :=
| w_nil cur acc : wrel d t [] cur acc acc
| w_hit r rs cur acc p l : hit d t cur r p -> wrel d t rs p (p :: acc) l -> wrel d t (r :: rs) cur acc l
| w_miss r rs cur acc l : leader cm choose t r <> None -> (forall p, ~ hit d t cur r p) ->
    wrel d t rs cur acc l -> wrel d t (r :: rs) cur acc l.

Lemma hit_fun d t cur r p q : hit d t cur r p -> hit d t cur r q -> p = q.
Proof. intros (a & A & B & _) (a' & A' & B' & _). congruence. Qed.

Lemma walk_wrel d t rs : forall cur acc l, walk d t rs cur acc = Some l <-> wrel d t rs cur acc l.
Proof.
  unfold walk. induction rs as [|r rs IH]; intros cur acc l; cbn [BullModel.walk].
  - split; [intros E; inversion E; constructor|intros H; inversion H; reflexivity].
  - split.
    + destruct (leader cm choose t r) as [a|] eqn:EL; [|discriminate].
      destruct (find_cert d r (a_id a)) as [p|] eqn:EF.
      * destruct (linked d cur p) eqn:EK; intros H; apply IH in H.
        { eapply w_hit; [|exact H]. exists a. auto. }
        { apply w_miss; [congruence| |exact H]. intros q (a' & A & B & C). congruence. }
      * intros H. apply IH in H. apply w_miss; [congruence| |exact H]. intros q (a' & A & B & C). congruence.
    + intros H. inversion H as [|? ? ? ? p ? Hh Hw|? ? ? ? ? HL Hm Hw]; subst; apply IH in Hw.
      * destruct Hh as (a & -> & -> & ->). exact Hw.
      * destruct (leader cm choose t r) as [a|] eqn:EL; [|congruence].
        destruct (find_cert d r (a_id a)) as [p|] eqn:EF; [|exact Hw].
        destruct (linked d cur p) eqn:EK; [|exact Hw].
        exfalso. apply (Hm p). exists a. auto.
Qed.

Lemma hit_In d t cur r p : hit d t cur r p -> In p d /\ c_round p = r /\ linked d cur p = true.
Proof. intros (a & _ & F & K). apply find_cert_Some in F as (A & B & _). auto. Qed.

(* the head of the accumulator is always the current leader *)
Lemma wrel_head d t rs cur acc l : wrel d t rs cur acc l -> forall tl, acc = cur :: tl ->
  exists low tl', l = low :: tl' /\ ((low = cur /\ tl' = tl) \/ (In low d /\ In (c_round low) rs)).
Proof.
  intros W. induction W as [cur acc|r rs cur acc p l H W IH|r rs cur acc l HL Hm W IH]; intros tl ->.
  - exists cur, tl. auto.
  - destruct (IH (cur :: tl) eq_refl) as (low & tl' & -> & [[-> ->]|[A B]]).
    + exists p, (cur :: tl). split; [reflexivity|right]. apply hit_In in H as (A & B & _). split; [assumption|left; auto].
    + exists low, tl'. split; [reflexivity|right]. split; [assumption|right; assumption].
  - destruct (IH tl eq_refl) as (low & tl' & -> & [[-> ->]|[A B]]).
    + exists cur, tl. auto.
    + exists low, tl'. split; [reflexivity|right]. split; [assumption|right; assumption].
Qed.

Lemma wrel_app d t rs1 rs2 : forall cur acc l, wrel d t (rs1 ++ rs2) cur acc l -> forall tl, acc = cur :: tl ->
  exists c1 tl1, wrel d t rs1 cur acc (c1 :: tl1) /\ wrel d t rs2 c1 (c1 :: tl1) l.
Proof.
  induction rs1 as [|r rs1 IH]; intros cur acc l W tl ->.
  - exists cur, tl. split; [constructor|exact W].
  - cbn [app] in W. inversion W as [|? ? ? ? p ? Hh Hw|? ? ? ? ? HL Hm Hw]; subst.
    + destruct (IH _ _ _ Hw _ eq_refl) as (c1 & tl1 & A & B). exists c1, tl1. split; [|exact B].
      eapply w_hit; eassumption.
    + destruct (IH _ _ _ Hw _ eq_refl) as (c1 & tl1 & A & B). exists c1, tl1. split; [|exact B].
      apply w_miss; assumption.
Qed.

(* dropping the lowest leader = stopping the walk above it *)
Lemma wrel_rest d t rs cur acc l : wrel d t rs cur acc l -> StronglySorted gtN rs ->
  forall tl low rest, acc = cur :: tl -> l = low :: rest ->
  (low = cur /\ rest = tl) \/
  (In (c_round low) rs /\ wrel d t (filter (fun r => c_round low <? r) rs) cur acc rest).
Proof.
  intros W. induction W as [cur acc|r rs cur acc p l H W IH|r rs cur acc l HL Hm W IH];
    intros S tl low rest Ea El.
  - left. rewrite Ea in El. inversion El. auto.
  - right. inversion S as [|? ? S' F]; subst. rewrite Forall_forall in F. unfold gtN in F.
    destruct (IH S' (cur :: tl) low rest eq_refl eq_refl) as [[-> ->]|[A B]].
    + apply hit_In in H as (Hp & Hr & _). split; [left; auto|]. cbn [filter].
      rewrite Hr, N.ltb_irrefl. replace (filter (fun r0 => r <? r0) rs) with (@nil N); [constructor|].
      symmetry. clear - F. induction rs as [|a rs IH]; [reflexivity|]. cbn [filter].
      pose proof (F a (or_introl eq_refl)). destruct (N.ltb_spec r a); [lia|]. apply IH.
      intros x Hx. apply F. right. assumption.
    + split; [right; assumption|]. cbn [filter]. specialize (F _ A).
      destruct (N.ltb_spec (c_round low) r); [|lia]. eapply w_hit; eassumption.
  - inversion S as [|? ? S' F]; subst. rewrite Forall_forall in F. unfold gtN in F.
    destruct (IH S' tl low rest eq_refl eq_refl) as [E|[A B]]; [left; exact E|right].
    split; [right; assumption|]. cbn [filter]. specialize (F _ A).
    destruct (N.ltb_spec (c_round low) r); [|lia]. apply w_miss; assumption.
Qed.

(* every committed leader of the walk is linked from the next one *)
Lemma wrel_links d t rs cur acc l : wrel d t rs cur acc l ->
  forall tl, acc = cur :: tl -> exists pre, l = pre ++ acc /\
  forall l1 x y l2, pre ++ [cur] = l1 ++ x :: y :: l2 -> linked d y x = true.
Proof.
  intros W. induction W as [cur acc|r rs cur acc p l H W IH|r rs cur acc l HL Hm W IH]; intros tl ->.
  - exists []. split; [reflexivity|]. intros l1 x y l2 E. destruct l1 as [|? [|]]; discriminate E.
  - destruct (IH (cur :: tl) eq_refl) as (pre & -> & L). exists (pre ++ [p]). split.
    + rewrite <- app_assoc. reflexivity.
    + intros l1 x y l2 E. destruct l2 as [|z l2].
      * rewrite <- app_assoc in E. cbn [app] in E.
        assert (E' : (pre ++ [p]) ++ [cur] = (l1 ++ [x]) ++ [y]) by (rewrite <- !app_assoc; exact E).
        apply app_inj_tail in E' as [E1 ->]. apply app_inj_tail in E1 as [_ ->].
        apply hit_In in H. tauto.
      * destruct (exists_last (l := z :: l2)) as (l3 & w & E3); [discriminate|]. rewrite E3 in E.
        assert (E' : (pre ++ [p]) ++ [cur] = (l1 ++ x :: y :: l3) ++ [w]) by (rewrite <- !app_assoc; cbn [app]; rewrite <- app_assoc in E; exact E).
        apply app_inj_tail in E' as [E1 _]. apply (L l1 x y l3). exact E1.
  - apply (IH tl eq_refl).
Qed.

Lemma linked_loop_purge d g rs ps : (forall r, In r rs -> g < r) ->
  linked_loop (filter (fun y => g <? c_round y) d) rs ps = linked_loop d rs ps.
Proof.
  revert ps. induction rs as [|r rs IH]; intros ps H; [reflexivity|]. cbn [linked_loop].
  rewrite round_table_purge by (apply H; left; reflexivity). apply IH. intros; apply H; right; assumption.
Qed.
Lemma linked_purge d g x p : g < c_round p -> linked (filter (fun y => g <? c_round y) d) x p = linked d x p.
Proof.
  intros H. unfold linked. rewrite linked_loop_purge; [reflexivity|]. intros r Hr. apply down_In in Hr. lia.
Qed.
Lemma hit_purge d t g cur r p : g < r -> (hit (filter (fun y => g <? c_round y) d) t cur r p <-> hit d t cur r p).
Proof.
  intros H. unfold hit. split; intros (a & A & B & C); exists a; rewrite find_cert_purge in * by assumption.
  - pose proof (find_cert_Some _ _ _ _ B) as (_ & E & _). rewrite linked_purge in C by lia. auto.
  - pose proof (find_cert_Some _ _ _ _ B) as (_ & E & _). rewrite linked_purge by lia. auto.
Qed.
Lemma wrel_purge d t g rs cur acc l : (forall r, In r rs -> g < r) ->
  wrel d t rs cur acc l -> wrel (filter (fun y => g <? c_round y) d) t rs cur acc l.
Proof.
  intros H W. induction W as [cur acc|r rs cur acc p l Hh W IH|r rs cur acc l HL Hm W IH].
  - constructor.
  - eapply w_hit; [apply hit_purge; [apply H; left; reflexivity|eassumption]|].
    apply IH. intros; apply H; right; assumption.
  - apply w_miss; [assumption| |apply IH; intros; apply H; right; assumption].
    intros p Hp. apply hit_purge in Hp; [|apply H; left; reflexivity]. eapply Hm; eassumption.
Qed.

(* ---------- two local dags give the same walk ---------- *)
Variable G : header -> Prop.
Hypothesis wf : committee_wf cm.
Hypothesis ok : dag_ok cm G.

Lemma hit_transfer d1 d2 gc t c1 c2 r p : dagInv G d1 gc -> dagInv G d2 gc ->
  In c1 d1 -> In c2 d2 -> c_header c1 = c_header c2 -> r < c_round c1 ->
  hit d1 t c1 r p -> exists q, hit d2 t c2 r q /\ c_header p = c_header q.
Proof.
  intros I1 I2 H1 H2 E Hr (a & A & F & K). pose proof (find_cert_Some _ _ _ _ F) as (Hp & Er & Eo).
  apply linked_iff in K; [|lia]. destruct K as (z & P & Ez).
  assert (Hz : In z d1) by (destruct (path_end _ _ _ P) as [<-|]; assumption).
  apply (cert_eqb_header cm G ok d1 gc d1 gc) in Ez; [|assumption..].
  destruct (path_transfer cm G ok d1 d2 gc c1 z I1 I2 P c2 H2 E) as (q & Hq & Eq & Pq).
  assert (Epq : c_header p = c_header q) by congruence.
  exists q. split; [|assumption]. exists a. split; [assumption|]. split.
  - rewrite <- Er, <- Eo, (hround _ _ Epq), (horigin _ _ Epq). eapply find_cert_In; eassumption.
  - apply linked_iff.
    + pose proof (hround _ _ E). pose proof (hround _ _ Epq). lia.
    + exists q. split; [assumption|]. unfold cert_eqb. rewrite !N.eqb_refl. reflexivity.
Qed.

Lemma walk_sim d1 d2 gc t rs : dagInv G d1 gc -> dagInv G d2 gc -> StronglySorted gtN rs ->
  forall c1 c2 a1 a2 l1 l2, In c1 d1 -> In c2 d2 -> c_header c1 = c_header c2 ->
  (forall r, In r rs -> r < c_round c1) ->
  wrel d1 t rs c1 (c1 :: a1) l1 -> wrel d2 t rs c2 (c2 :: a2) l2 ->
  exists x1 b1 x2 b2, l1 = x1 :: b1 /\ l2 = x2 :: b2 /\ c_header x1 = c_header x2.
Proof.
  intros I1 I2. induction rs as [|r rs IH]; intros S c1 c2 a1 a2 l1 l2 H1 H2 E Hr W1 W2.
  - inversion W1; inversion W2; subst. do 4 eexists. split; [reflexivity|]. split; [reflexivity|assumption].
  - inversion S as [|? ? S' F]; subst. rewrite Forall_forall in F. unfold gtN in F.
    assert (Hrr : r < c_round c1) by (apply Hr; left; reflexivity).
    assert (Hrr2 : r < c_round c2) by (rewrite <- (hround _ _ E); exact Hrr).
    inversion W1 as [|? ? ? ? p1 ? Hh1 Hw1|? ? ? ? ? HL1 Hm1 Hw1];
    inversion W2 as [|? ? ? ? p2 ? Hh2 Hw2|? ? ? ? ? HL2 Hm2 Hw2]; subst.
    + destruct (hit_transfer d1 d2 gc t c1 c2 r p1 I1 I2 H1 H2 E Hrr Hh1) as (q & Hq & Eq).
      pose proof (hit_fun _ _ _ _ _ _ Hh2 Hq); subst q.
      apply (IH S' p1 p2 (c1 :: a1) (c2 :: a2)); [apply hit_In in Hh1|apply hit_In in Hh2| | | |]; try tauto.
      intros r' Hr'. apply hit_In in Hh1 as (_ & -> & _). apply F. assumption.
    + destruct (hit_transfer d1 d2 gc t c1 c2 r p1 I1 I2 H1 H2 E Hrr Hh1) as (q & Hq & _).
      exfalso. eapply Hm2. exact Hq.
    + destruct (hit_transfer d2 d1 gc t c2 c1 r p2 I2 I1 H2 H1 (eq_sym E) Hrr2 Hh2) as (q & Hq & _).
      exfalso. eapply Hm1. exact Hq.
    + apply (IH S' c1 c2 a1 a2); try assumption. intros; apply Hr; right; assumption.
Qed.

(* the anchor of one node lies on the walk of any later anchor of the other *)
Lemma walk_through d1 d2 gc t lo X1 X2 l1 l2 a :
  dagInv G d1 gc -> dagInv G d2 gc -> In X1 d1 -> In X2 d2 ->
  lo mod 2 = 0 -> 2 <= lo -> gc < lo ->
  c_round X1 mod 2 = 0 -> c_round X2 mod 2 = 0 -> lo <= c_round X1 -> c_round X1 < c_round X2 ->
  leader cm choose t (c_round X1) = Some a -> a_id a = c_origin X1 -> supported cm d1 X1 ->
  wrel d1 t (step_rounds lo (c_round X1 - 2)) X1 [X1] l1 ->
  wrel d2 t (step_rounds lo (c_round X2 - 2)) X2 [X2] l2 ->
  exists x1 b1 x2 b2, l1 = x1 :: b1 /\ l2 = x2 :: b2 /\ c_header x1 = c_header x2.
Proof.
  intros I1 I2 H1 H2 Elo Hlo Hgc E1 E2 L1 L12 HA HO SUP W1 W2.
  rewrite (step_rounds_split lo (c_round X1) (c_round X2 - 2)) in W2 by lia.
  destruct (wrel_app _ _ _ _ _ _ _ W2 [] eq_refl) as (Z & tl & WA & WB).
  destruct (wrel_head _ _ _ _ _ _ WA [] eq_refl) as (Z' & tl' & EZ & HZ). inversion EZ; subst Z' tl'. clear EZ.
  assert (HZd : In Z d2) by (destruct HZ as [[-> _]|[A _]]; assumption).
  assert (HZr : c_round X1 + 2 <= c_round Z).
  { destruct HZ as [[-> _]|[_ A]]; [lia|]. apply step_rounds_In in A; lia. }
  destruct (anchor_reached cm G wf ok d1 d2 gc X1 Z I1 I2 H1 SUP) as (X & HX & EX & PX); [lia|assumption|assumption|].
  assert (HIT : hit d2 t Z (c_round X1) X).
  { exists a. split; [assumption|]. split.
    - rewrite HO, <- (hround _ _ EX), <- (horigin _ _ EX). eapply find_cert_In; eassumption.
    - apply linked_iff; [rewrite (hround _ _ EX); lia|]. exists X. split; [assumption|].
      unfold cert_eqb. rewrite !N.eqb_refl. reflexivity. }
  inversion WB as [|? ? ? ? p ? Hh Hw|? ? ? ? ? HL Hm Hw]; subst.
  2:{ exfalso. eapply Hm. exact HIT. }
  pose proof (hit_fun _ _ _ _ _ _ HIT Hh); subst p.
  eapply (walk_sim d1 d2 gc t); [exact I1|exact I2|apply step_rounds_sorted|exact H1|exact HX|congruence| |exact W1|exact Hw].
  intros r Hr. apply step_rounds_In in Hr; lia.
Qed.
End Walk.
