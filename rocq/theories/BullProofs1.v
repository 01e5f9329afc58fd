From Verif Require Import Util Types CommitteeModel CommitteeProofs CertModel LeaderModel LeaderProofs GasModel BullModel BullSpec.
Local Open Scope N_scope.

(* ---------- dag basics ---------- *)
Lemma round_table_In d r x : In x (round_table d r) <-> In x d /\ c_round x = r.
Proof. unfold round_table. rewrite filter_In, N.eqb_eq. reflexivity. Qed.

Lemma round_table_purge d g r : g < r -> round_table (filter (fun y => g <? c_round y) d) r = round_table d r.
Proof.
  intros H. unfold round_table. induction d as [|x d IH]; [reflexivity|]. cbn [filter].
  destruct (N.ltb_spec g (c_round x)); cbn [filter]; [rewrite IH; reflexivity|].
  destruct (N.eqb_spec (c_round x) r); [lia|exact IH].
Qed.

Lemma find_cert_Some d r a x : find_cert d r a = Some x -> In x d /\ c_round x = r /\ c_origin x = a.
Proof.
  intros H. apply find_some in H as [H E]. apply andb_true_iff in E as [E1 E2].
  apply N.eqb_eq in E1, E2. auto.
Qed.
Lemma find_cert_None d r a : find_cert d r a = None -> forall x, In x d -> c_round x = r -> c_origin x <> a.
Proof.
  intros H x Hin Hr Ha. eapply find_none in H; [|eassumption]. cbn in H.
  rewrite Hr, Ha, !N.eqb_refl in H. discriminate.
Qed.
Lemma find_cert_purge d g r a : g < r -> find_cert (filter (fun y => g <? c_round y) d) r a = find_cert d r a.
Proof.
  intros H. unfold find_cert. induction d as [|x d IH]; [reflexivity|]. cbn [filter find].
  destruct (N.ltb_spec g (c_round x)); cbn [find]; [rewrite IH; reflexivity|].
  destruct (N.eqb_spec (c_round x) r); [lia|]. cbn [andb]. exact IH.
Qed.
Lemma find_parent_Some d r p x : find_parent d r p = Some x -> In x d /\ c_round x = r /\ c_digest x = p.
Proof.
  intros H. apply find_some in H as [H E]. apply andb_true_iff in E as [E1 E2].
  apply N.eqb_eq in E1, E2. auto.
Qed.
Lemma find_parent_None d r p : find_parent d r p = None -> forall x, In x d -> c_round x = r -> c_digest x <> p.
Proof.
  intros H x Hin Hr Ha. eapply find_none in H; [|eassumption]. cbn in H.
  rewrite Hr, Ha, !N.eqb_refl in H. discriminate.
Qed.

(* ---------- ranges ---------- *)
Lemma down_In n lo r : In r (down n lo) <-> lo <= r < lo + N.of_nat n.
Proof.
  induction n as [|n IH]; cbn [down]; [simpl; lia|]. cbn [In]. rewrite IH. lia.
Qed.

(* ---------- linked ---------- *)
Lemma linked_loop_path d n : forall lo ps z,
  (forall p, In p ps -> c_round p = lo + N.of_nat n) ->
  In z (linked_loop d (down n lo) ps) <->
  exists p, In p ps /\ c_round z = lo /\ path d p z.
Proof.
  induction n as [|n IH]; intros lo ps z Hps.
  - cbn [down linked_loop]. split.
    + intros Hz. exists z. specialize (Hps z Hz). split; [assumption|]. split; [lia|]. apply p_refl.
    + intros (p & Hp & Hr & P). inversion P; subst; [assumption|].
      specialize (Hps _ Hp).
      assert (X : forall a b, path d a b -> c_round b <= c_round a).
      { clear. intros a b P. induction P; lia. }
      match goal with Q : path d _ z |- _ => apply X in Q end. lia.
  - cbn [down linked_loop]. rewrite IH.
    + split.
      * intros (p & Hp & Hr & P). apply filter_In in Hp as [Hp E]. apply round_table_In in Hp as [Hp Hpr].
        apply existsb_exists in E as (q & Hq & E). apply memN_In in E.
        exists q. split; [assumption|]. split; [assumption|].
        apply p_step with p; try assumption. rewrite (Hps q Hq), Hpr. lia.
      * intros (q & Hq & Hr & P). inversion P as [|a y b Hy Hyr Hyd P']; subst.
        { specialize (Hps z Hq). lia. }
        exists y. split; [|split; [reflexivity|assumption]]. apply filter_In. split.
        { apply round_table_In. split; [assumption|]. specialize (Hps q Hq). lia. }
        { apply existsb_exists. exists q. split; [assumption|]. apply memN_In. assumption. }
    + intros p Hp. apply filter_In in Hp as [Hp _]. apply round_table_In in Hp as [_ Hp]. lia.
Qed.

Lemma linked_iff d x p : c_round p <= c_round x ->
  (linked d x p = true <-> exists z, path d x z /\ cert_eqb p z = true).
Proof.
  intros H. unfold linked. rewrite existsb_exists. split.
  - intros (z & Hz & E). apply linked_loop_path in Hz.
    + destruct Hz as (q & [->|[]] & _ & P). exists z. auto.
    + intros q [<-|[]]. lia.
  - intros (z & P & E). exists z. split; [|assumption]. apply linked_loop_path.
    + intros q [<-|[]]. lia.
    + exists x. split; [left; reflexivity|]. split; [|assumption].
      unfold cert_eqb in E. repeat rewrite andb_true_iff in E. destruct E as [[[_ E] _] _].
      apply N.eqb_eq in E. congruence.
Qed.

Lemma path_round d x y : path d x y -> c_round y <= c_round x.
Proof. intros P. induction P; lia. Qed.
Lemma path_end d x y : path d x y -> x = y \/ In y d.
Proof.
  intros P. induction P as [|x y z Hy _ _ P IH]; [left; reflexivity|right].
  destruct IH as [<-|IH]; assumption.
Qed.
Lemma path_trans d x y z : path d x y -> path d y z -> path d x z.
Proof. intros P Q. induction P; [assumption|]. eapply p_step; eauto. Qed.

(* ---------- the invariant of the local dag ---------- *)
Section G.
Variable cm : committee.
Variable G : header -> Prop.
Hypothesis wf : committee_wf cm.
Hypothesis ok : dag_ok cm G.

Record dagInv (d : dag) (gc : N) : Prop := {
  di_G : forall x, In x d -> G (c_header x);
  di_uniq : NoDup (map (fun x => (c_round x, c_origin x)) d);
  di_above : forall x, In x d -> gc < c_round x;
  di_closed : forall x, In x d -> gc + 1 < c_round x -> forall p, In p (c_parents x) ->
    exists y, In y d /\ c_round y + 1 = c_round x /\ c_digest y = p
}.

Lemma same_digest d1 g1 d2 g2 x y : dagInv d1 g1 -> dagInv d2 g2 -> In x d1 -> In y d2 ->
  c_digest x = c_digest y -> c_header x = c_header y.
Proof. intros I1 I2 Hx Hy E. apply (d_inj _ _ ok); [apply I1|apply I2|]; assumption. Qed.

Lemma cert_eqb_header d1 g1 d2 g2 x y : dagInv d1 g1 -> dagInv d2 g2 -> In x d1 -> In y d2 ->
  (cert_eqb x y = true <-> c_header x = c_header y).
Proof.
  intros I1 I2 Hx Hy. unfold cert_eqb. split.
  - intros E. repeat rewrite andb_true_iff in E. destruct E as [[[E _] _] _]. apply N.eqb_eq in E.
    exact (same_digest _ _ _ _ _ _ I1 I2 Hx Hy E).
  - intros E. unfold c_digest, c_round, c_epoch, c_origin. rewrite E, !N.eqb_refl. reflexivity.
Qed.

Lemma hround x y : c_header x = c_header y -> c_round x = c_round y.
Proof. unfold c_round. intros ->. reflexivity. Qed.
Lemma horigin x y : c_header x = c_header y -> c_origin x = c_origin y.
Proof. unfold c_origin. intros ->. reflexivity. Qed.
Lemma hdigest x y : c_header x = c_header y -> c_digest x = c_digest y.
Proof. unfold c_digest. intros ->. reflexivity. Qed.
Lemma hparents x y : c_header x = c_header y -> c_parents x = c_parents y.
Proof. unfold c_parents. intros ->. reflexivity. Qed.

Lemma uniq_slot d gc x y : dagInv d gc -> In x d -> In y d -> c_round x = c_round y -> c_origin x = c_origin y -> x = y.
Proof.
  intros I Hx Hy E1 E2. pose proof (di_uniq _ _ I) as U. clear I.
  induction d as [|a d IH]; [contradiction|]. cbn [map] in U. inversion U as [|? ? Hn U']; subst.
  destruct Hx as [<-|Hx], Hy as [<-|Hy]; [reflexivity| | |apply IH; assumption];
    exfalso; apply Hn; apply in_map_iff; [exists y|exists x]; (split; [congruence|assumption]).
Qed.
Lemma uniq_header d gc x y : dagInv d gc -> In x d -> In y d -> c_header x = c_header y -> x = y.
Proof. intros I Hx Hy E. eapply uniq_slot; eauto; unfold c_round, c_origin; congruence. Qed.

Lemma find_cert_In d gc x : dagInv d gc -> In x d -> find_cert d (c_round x) (c_origin x) = Some x.
Proof.
  intros I Hx. destruct (find_cert d (c_round x) (c_origin x)) as [y|] eqn:E.
  - apply find_cert_Some in E as (Hy & Hr & Ho). f_equal. eapply uniq_slot; eauto.
  - exfalso. apply (find_cert_None _ _ _ E x Hx); reflexivity.
Qed.

Lemma dagInv_purge d gc g : dagInv d gc -> gc <= g -> dagInv (filter (fun y => g <? c_round y) d) g.
Proof.
  intros I Hg. constructor.
  - intros x Hx. apply filter_In in Hx as [Hx _]. apply I. assumption.
  - pose proof (di_uniq _ _ I) as U. clear I. induction d as [|a d IH]; [constructor|].
    cbn [map] in U. inversion U as [|? ? Hn U']; subst. cbn [filter].
    destruct (g <? c_round a); [|apply IH; assumption]. cbn [map]. constructor; [|apply IH; assumption].
    intros Hin. apply Hn. apply in_map_iff in Hin as (y & E & Hy). apply filter_In in Hy as [Hy _].
    apply in_map_iff. exists y. auto.
  - intros x Hx. apply filter_In in Hx as [_ Hx]. apply N.ltb_lt. assumption.
  - intros x Hx Hr p Hp. apply filter_In in Hx as [Hx _].
    destruct (di_closed _ _ I x Hx) with (p := p) as (y & Hy & Er & Ed); [lia|assumption|].
    exists y. split; [|auto]. apply filter_In. split; [assumption|]. apply N.ltb_lt. lia.
Qed.

(* transfer of paths between two local dags *)
Lemma path_transfer d1 d2 gc x1 y1 : dagInv d1 gc -> dagInv d2 gc ->
  path d1 x1 y1 -> forall x2, In x2 d2 -> c_header x1 = c_header x2 ->
  exists y2, In y2 d2 /\ c_header y1 = c_header y2 /\ path d2 x2 y2.
Proof.
  intros I1 I2 P. induction P as [x|x y z Hy Hr Hd P IH]; intros x2 Hx2 E.
  - exists x2. split; [assumption|]. split; [assumption|apply p_refl].
  - destruct (di_closed _ _ I2 x2 Hx2) with (p := c_digest y) as (y2 & Hy2 & Hr2 & Hd2).
    { pose proof (di_above _ _ I1 y Hy). pose proof (hround _ _ E). lia. }
    { rewrite <- (hparents _ _ E). assumption. }
    destruct (IH y2 Hy2) as (z2 & Hz2 & Ez & Pz).
    { exact (same_digest _ _ _ _ _ _ I1 I2 Hy Hy2 (eq_sym Hd2)). }
    exists z2. split; [assumption|]. split; [assumption|].
    eapply p_step; [exact Hy2|assumption| |exact Pz]. rewrite Hd2, <- (hparents _ _ E). assumption.
Qed.

(* every certificate has a parent in the dag while above the horizon *)
Lemma has_parent d gc x : dagInv d gc -> In x d -> gc + 1 < c_round x -> 2 <= c_round x ->
  exists y, In y d /\ c_round y + 1 = c_round x /\ In (c_digest y) (c_parents x).
Proof.
  intros I Hx Hgc H2. destruct (d_quorum _ _ ok (c_header x)) as (Q & ND & HQ & HP); [apply I; assumption|exact H2|].
  destruct Q as [|p Q].
  - exfalso. cbn in HQ. change (group_power cm []) with 0 in HQ.
    pose proof (wf_size _ wf). rewrite (wf_quorum _ wf) in HQ. lia.
  - destruct (HP p (or_introl eq_refl)) as (_ & _ & Hin).
    destruct (di_closed _ _ I x Hx Hgc _ Hin) as (y & Hy & Er & Ed). exists y.
    split; [assumption|]. split; [assumption|]. rewrite Ed. exact Hin.
Qed.

Lemma descend d gc n : dagInv d gc -> forall x, In x d -> gc < c_round x - N.of_nat n -> 1 <= c_round x - N.of_nat n ->
  exists y, In y d /\ c_round y = c_round x - N.of_nat n /\ path d x y.
Proof.
  intros I. induction n as [|n IH]; intros x Hx Hg H1.
  - exists x. split; [assumption|]. split; [lia|apply p_refl].
  - destruct (IH x Hx) as (y & Hy & Hr & P); [lia|lia|].
    destruct (has_parent d gc y I Hy) as (z & Hz & Hzr & Hzd); [lia|lia|].
    exists z. split; [assumption|]. split; [lia|]. eapply path_trans; [exact P|].
    eapply p_step; eauto. apply p_refl.
Qed.

(* a leader with validity support in one dag is reached from every certificate two rounds up in any other *)
Definition supported (d : dag) (X : cert) : Prop :=
  cm_validity cm <= group_power cm (map c_origin (supporters d (c_round X + 1) (c_digest X))).

Lemma supporters_In d r g x : In x (supporters d r g) <-> In x d /\ c_round x = r /\ In g (c_parents x).
Proof. unfold supporters. rewrite filter_In, round_table_In, memN_In. tauto. Qed.

Lemma supporters_NoDup d gc r g : dagInv d gc -> NoDup (map c_origin (supporters d r g)).
Proof.
  intros I. pose proof (di_uniq _ _ I) as U. clear I. unfold supporters, round_table.
  induction d as [|a d IH]; [constructor|]. cbn [map] in U. inversion U as [|? ? Hn U']; subst.
  specialize (IH U'). cbn [filter]. destruct (N.eqb_spec (c_round a) r); [|exact IH]. cbn [filter].
  destruct (memN g (c_parents a)); [|exact IH]. cbn [map]. constructor; [|exact IH].
  intros Hin. apply Hn. apply in_map_iff in Hin as (y & E & Hy). apply filter_In in Hy as [Hy _].
  apply filter_In in Hy as [Hy Er]. apply N.eqb_eq in Er. apply in_map_iff. exists y. split; [congruence|assumption].
Qed.

Lemma anchor_reached d1 d2 gc X Z : dagInv d1 gc -> dagInv d2 gc -> In X d1 -> supported d1 X ->
  1 <= c_round X -> In Z d2 -> c_round X + 2 <= c_round Z ->
  exists X2, In X2 d2 /\ c_header X2 = c_header X /\ path d2 Z X2.
Proof.
  intros I1 I2 HX S H1 HZ Hr. pose proof (di_above _ _ I1 X HX) as HgX.
  destruct (descend d2 gc (N.to_nat (c_round Z - (c_round X + 2))) I2 Z HZ) as (W & HW & HWr & PW); [lia|lia|].
  assert (EW : c_round W = c_round X + 2) by lia. clear HWr.
  destruct (d_quorum _ _ ok (c_header W)) as (Q & ND & HQ & HP); [apply I2; assumption|unfold c_round in *; lia|].
  destruct (validity_meets_quorum cm (map c_origin (supporters d1 (c_round X + 1) (c_digest X))) (map h_author Q))
    as (a & HaS & HaQ & _); [assumption| |assumption| | |].
  { eapply supporters_NoDup; eassumption. }
  { unfold reached_validity. apply N.leb_le. exact S. }
  { unfold reached_quorum. apply N.leb_le. exact HQ. }
  apply in_map_iff in HaS as (s & Es & Hs). apply supporters_In in Hs as (Hs & Hsr & Hsp).
  apply in_map_iff in HaQ as (q & Eq & Hq). destruct (HP q Hq) as (Gq & Hqr & Hqp).
  assert (E : c_header s = q).
  { apply (d_noeq _ _ ok); [apply I1; assumption|assumption| |].
    - unfold c_round in *. lia.
    - unfold c_origin in *. congruence. }
  destruct (di_closed _ _ I2 W HW) with (p := h_digest q) as (s2 & Hs2 & Hs2r & Hs2d); [lia|exact Hqp|].
  assert (Ess : c_header s2 = c_header s).
  { eapply same_digest; [exact I2|exact I1|assumption|assumption|]. rewrite Hs2d, <- E. reflexivity. }
  destruct (di_closed _ _ I2 s2 Hs2) with (p := c_digest X) as (X2 & HX2 & HX2r & HX2d).
  { lia. }
  { rewrite (hparents _ _ Ess). assumption. }
  exists X2. split; [assumption|]. split.
  { exact (same_digest _ _ _ _ _ _ I2 I1 HX2 HX HX2d). }
  eapply path_trans; [exact PW|]. eapply p_step; [exact Hs2|exact Hs2r| |].
  { rewrite Hs2d. exact Hqp. }
  eapply p_step; [exact HX2|exact HX2r| |apply p_refl].
  rewrite HX2d, (hparents _ _ Ess). assumption.
Qed.
End G.
