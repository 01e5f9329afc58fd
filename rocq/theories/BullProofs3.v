From Verif Require Import Util Types CommitteeModel CommitteeProofs CertModel LeaderModel LeaderProofs GasModel BullModel BullSpec BullProofs1.
Local Open Scope N_scope.

(* ---------- the depth-first walk terminates ---------- *)
Definition fresh (d : dag) (seen : list N) : nat := length (filter (fun g => negb (memN g seen)) (map c_digest d)).

Lemma fresh_push l g seen : In g l -> ~ In g seen ->
  (S (length (filter (fun x => negb (memN x (g :: seen))) l)) <= length (filter (fun x => negb (memN x seen)) l))%nat.
Proof.
  intros Hin Hn. induction l as [|a l IH]; [contradiction|]. cbn [filter].
  assert (MONO : (length (filter (fun x => negb (memN x (g :: seen))) l) <= length (filter (fun x => negb (memN x seen)) l))%nat).
  { clear. induction l as [|a l IH]; [simpl; lia|]. cbn [filter].
    destruct (memN a seen) eqn:E.
    - replace (memN a (g :: seen)) with true; [exact IH|]. symmetry. apply memN_In. right. apply memN_In. assumption.
    - destruct (memN a (g :: seen)); cbn [negb length]; lia. }
  destruct (N.eq_dec a g) as [->|Ne].
  - replace (memN g (g :: seen)) with true by (symmetry; apply memN_In; left; reflexivity).
    replace (memN g seen) with false by (symmetry; apply memN_nIn; assumption). cbn [negb length]. lia.
  - destruct Hin as [E|Hin]; [congruence|]. specialize (IH Hin).
    replace (memN a (g :: seen)) with (memN a seen).
    + destruct (memN a seen); cbn [negb length]; lia.
    + destruct (memN a seen) eqn:E; symmetry.
      * apply memN_In. right. apply memN_In. assumption.
      * apply memN_nIn. intros [X|X]; [congruence|]. apply memN_In in X. congruence.
Qed.

Lemma push_measure d last r ps : forall st seen st' seen',
  fold_left (push_parent d last r) ps (st, seen) = (st', seen') ->
  (length st' + fresh d seen' <= length st + fresh d seen)%nat.
Proof.
  induction ps as [|p ps IH]; intros st seen st' seen' E.
  - cbn in E. inversion E; subst. lia.
  - cbn [fold_left] in E. unfold push_parent at 2 in E. cbn [fst snd] in E.
    destruct (find_parent d r p) as [y|] eqn:EF; [|apply IH in E; exact E].
    destruct (memN (c_digest y) seen || _) eqn:EC; [apply IH in E; exact E|].
    apply IH in E. apply orb_false_iff in EC as [EC _]. apply memN_nIn in EC.
    apply find_parent_Some in EF as (Hy & _ & _).
    pose proof (fresh_push (map c_digest d) (c_digest y) seen (in_map _ _ _ Hy) EC) as F.
    unfold fresh in *. cbn [length] in E. lia.
Qed.

Lemma dfs_total d last stop fuel : forall stack seen,
  (length stack + fresh d seen <= fuel)%nat -> dfs d last stop fuel stack seen <> None.
Proof.
  induction fuel as [|fuel IH]; intros stack seen H.
  - destruct stack; [cbn; discriminate|cbn in H; lia].
  - destruct stack as [|x stack]; [cbn; discriminate|]. cbn [dfs].
    destruct (c_round x =? stop).
    + specialize (IH stack seen). cbn [length] in H.
      destruct (dfs d last stop fuel stack seen); [discriminate|]. intros _. apply IH; [lia|reflexivity].
    + destruct (fold_left _ _ _) as [stack' seen'] eqn:E. apply push_measure in E. cbn [length] in H.
      specialize (IH stack' seen').
      destruct (dfs d last stop fuel stack' seen'); [discriminate|]. intros _. apply IH; [lia|reflexivity].
Qed.

Lemma order_dag_total gc_depth s x : c_round x <> 0 -> exists l, order_dag gc_depth s x = Ok (sort_by_round l) /\
  dfs (b_dag s) (b_last s) (gc_round (c_round x) gc_depth + 1) (S (length (b_dag s))) [x] [] = Some l.
Proof.
  intros H. unfold order_dag. destruct (N.eqb_spec (c_round x) 0); [contradiction|].
  destruct (dfs _ _ _ _ _ _) as [l|] eqn:E; [exists l; auto|]. exfalso. revert E. apply dfs_total.
  unfold fresh. cbn [length]. pose proof (filter_len_le (fun g => negb (memN g [])) (map c_digest (b_dag s))) as L.
  rewrite map_length in L. lia.
Qed.

(* ---------- sorting ---------- *)
Lemma ins_round_perm x l : Permutation (ins_round x l) (x :: l).
Proof.
  induction l as [|y l IH]; cbn [ins_round]; [apply Permutation_refl|].
  destruct (c_round x <=? c_round y); [apply Permutation_refl|].
  rewrite IH. apply perm_swap.
Qed.
Lemma sort_perm l : Permutation (sort_by_round l) l.
Proof.
  induction l as [|x l IH]; [constructor|]. cbn [sort_by_round fold_right]. rewrite ins_round_perm.
  apply perm_skip. exact IH.
Qed.
Definition le_round (x y : cert) : Prop := c_round x <= c_round y.
Lemma ins_round_sorted x l : StronglySorted le_round l -> StronglySorted le_round (ins_round x l).
Proof.
  induction 1 as [|y l S IH F]; cbn [ins_round]; [constructor; constructor|].
  destruct (N.leb_spec (c_round x) (c_round y)) as [L|L].
  - constructor; [constructor; assumption|]. constructor; [exact L|].
    eapply Forall_impl; [|exact F]. unfold le_round. intros; lia.
  - constructor; [exact IH|]. apply Forall_forall. intros z Hz.
    apply (Permutation_in _ (ins_round_perm x l)) in Hz as [<-|Hz]; [unfold le_round; lia|].
    rewrite Forall_forall in F. apply F. assumption.
Qed.
Lemma sort_sorted l : StronglySorted le_round (sort_by_round l).
Proof. induction l; [constructor|]. cbn [sort_by_round fold_right]. apply ins_round_sorted. assumption. Qed.

Lemma sort_sim : forall l1 l2, map c_header l1 = map c_header l2 ->
  map c_header (sort_by_round l1) = map c_header (sort_by_round l2).
Proof.
  assert (I : forall x y l1 l2, c_header x = c_header y -> map c_header l1 = map c_header l2 ->
              map c_header (ins_round x l1) = map c_header (ins_round y l2)).
  { intros x y l1. induction l1 as [|a l1 IH]; intros [|b l2] E EL; cbn [map] in EL; try discriminate.
    - cbn. congruence.
    - inversion EL as [[Eab EL']]. cbn [ins_round]. rewrite (hround _ _ E), (hround _ _ Eab).
      destruct (c_round y <=? c_round b); cbn [map]; [congruence|]. rewrite Eab. f_equal. apply IH; assumption. }
  induction l1 as [|a l1 IH]; intros [|b l2] E; cbn [map] in E; try discriminate; [reflexivity|].
  inversion E as [[Eab EL]]. cbn [sort_by_round fold_right]. apply I; [assumption|]. apply IH. assumption.
Qed.

(* the certificate of strictly highest round sorts last *)
Lemma sort_last x l : In x l -> (forall y, In y l -> y = x \/ c_round y < c_round x) -> NoDup l ->
  exists pre, sort_by_round l = pre ++ [x] /\ Permutation pre (filter (fun y => negb (c_round y =? c_round x)) l).
Proof.
  intros Hin Hmax ND. pose proof (sort_perm l) as P. pose proof (sort_sorted l) as S.
  destruct (exists_last (l := sort_by_round l)) as (pre & z & E).
  { intros E. rewrite E in P. apply Permutation_nil in P. subst. contradiction. }
  rewrite E in P, S. exists pre.
  assert (z = x).
  { assert (Hz : In z l) by (apply (Permutation_in _ P); apply in_or_app; right; left; reflexivity).
    destruct (Hmax z Hz) as [|Hlt]; [assumption|]. exfalso.
    assert (Hx : In x (pre ++ [z])) by (apply (Permutation_in _ (Permutation_sym P)); assumption).
    apply in_app_or in Hx as [Hx|[<-|[]]]; [|lia].
    assert (X : forall p q, StronglySorted le_round (p ++ [q]) -> In x p -> c_round x <= c_round q).
    { clear. intros p q S. induction p as [|a p IH]; [intros []|]. cbn [app] in S. inversion S as [|? ? S' F]; subst.
      rewrite Forall_forall in F. intros [->|H]; [|apply IH; assumption].
      apply (F q). apply in_or_app. right. left. reflexivity. }
    specialize (X pre z S Hx). lia. }
  subst z. split; [assumption|].
  assert (ND2 : NoDup (pre ++ [x])) by (eapply Permutation_NoDup; [apply Permutation_sym; exact P|exact ND]).
  apply NoDup_Permutation.
  - apply NoDup_app_elim in ND2. tauto.
  - apply NoDup_filter. assumption.
  - intros y. rewrite filter_In, negb_true_iff, N.eqb_neq. split.
    + intros Hy. assert (Hyl : In y l) by (apply (Permutation_in _ P); apply in_or_app; left; assumption).
      split; [assumption|]. destruct (Hmax y Hyl) as [->|]; [|lia]. exfalso.
      apply NoDup_remove_2 in ND2. rewrite app_nil_r in ND2. contradiction.
    + intros [Hy Hr]. apply (Permutation_in _ (Permutation_sym P)) in Hy. apply in_app_or in Hy as [Hy|[<-|[]]]; [assumption|].
      lia.
Qed.

Section D.
Variable cm : committee.
Variable G : header -> Prop.
Hypothesis ok : dag_ok cm G.

(* ---------- two local dags give the same depth-first order ---------- *)
Definition wm_eqv (l1 l2 : bmap N) (gc : N) : Prop := forall a, N.max (wm l1 a) gc = N.max (wm l2 a) gc.

Lemma find_parent_sim d1 d2 gc x1 x2 p : dagInv G d1 gc -> dagInv G d2 gc -> In x1 d1 -> In x2 d2 ->
  c_header x1 = c_header x2 -> In p (c_parents x1) ->
  option_map c_header (find_parent d1 (c_round x1 - 1) p) = option_map c_header (find_parent d2 (c_round x2 - 1) p).
Proof.
  intros I1 I2 H1 H2 E Hp. pose proof (hround _ _ E) as Er. pose proof (di_above _ _ _ I1 x1 H1) as Ab.
  destruct (N.lt_ge_cases (gc + 1) (c_round x1)) as [L|L].
  - destruct (di_closed _ _ _ I1 x1 H1 L p Hp) as (y1 & Hy1 & Ry1 & Dy1).
    destruct (di_closed _ _ _ I2 x2 H2) with (p := p) as (y2 & Hy2 & Ry2 & Dy2); [lia|rewrite <- (hparents _ _ E); assumption|].
    destruct (find_parent d1 (c_round x1 - 1) p) as [z1|] eqn:F1.
    2:{ exfalso. apply (find_parent_None _ _ _ F1 y1 Hy1); [lia|assumption]. }
    destruct (find_parent d2 (c_round x2 - 1) p) as [z2|] eqn:F2.
    2:{ exfalso. apply (find_parent_None _ _ _ F2 y2 Hy2); [lia|assumption]. }
    apply find_parent_Some in F1 as (A1 & _ & B1). apply find_parent_Some in F2 as (A2 & _ & B2).
    cbn. f_equal. apply (same_digest cm G ok d1 gc d2 gc); try assumption. congruence.
  - destruct (find_parent d1 (c_round x1 - 1) p) as [z1|] eqn:F1.
    { apply find_parent_Some in F1 as (A1 & B1 & _). pose proof (di_above _ _ _ I1 z1 A1). lia. }
    destruct (find_parent d2 (c_round x2 - 1) p) as [z2|] eqn:F2.
    { apply find_parent_Some in F2 as (A2 & B2 & _). pose proof (di_above _ _ _ I2 z2 A2). lia. }
    reflexivity.
Qed.

Definition below (last : bmap N) (y : cert) : bool :=
  match bm_lookup (c_origin y) last with Some w => c_round y <=? w | None => false end.
Lemma below_wm last y : 0 < c_round y -> below last y = (c_round y <=? wm last (c_origin y)).
Proof.
  intros H. unfold below, wm. destruct (bm_lookup (c_origin y) last); [reflexivity|].
  symmetry. apply N.leb_gt. lia.
Qed.

Lemma push_sim d1 d2 l1 l2 gc x1 x2 : dagInv G d1 gc -> dagInv G d2 gc -> In x1 d1 -> In x2 d2 ->
  c_header x1 = c_header x2 -> wm_eqv l1 l2 gc ->
  forall ps st1 st2 seen st1' seen1' st2' seen2',
  (forall p, In p ps -> In p (c_parents x1)) ->
  incl st1 d1 -> incl st2 d2 -> map c_header st1 = map c_header st2 ->
  fold_left (push_parent d1 l1 (c_round x1 - 1)) ps (st1, seen) = (st1', seen1') ->
  fold_left (push_parent d2 l2 (c_round x2 - 1)) ps (st2, seen) = (st2', seen2') ->
  incl st1' d1 /\ incl st2' d2 /\ map c_header st1' = map c_header st2' /\ seen1' = seen2'.
Proof.
  intros I1 I2 H1 H2 E WE. induction ps as [|p ps IH]; intros st1 st2 seen st1' seen1' st2' seen2' Hps J1 J2 ES F1 F2.
  - cbn in F1, F2. inversion F1; inversion F2; subst. auto.
  - cbn [fold_left] in F1, F2. unfold push_parent at 2 in F1. unfold push_parent at 2 in F2. cbn [fst snd] in F1, F2.
    pose proof (find_parent_sim d1 d2 gc x1 x2 p I1 I2 H1 H2 E (Hps p (or_introl eq_refl))) as FP.
    assert (Hps' : forall p0, In p0 ps -> In p0 (c_parents x1)) by (intros; apply Hps; right; assumption).
    destruct (find_parent d1 (c_round x1 - 1) p) as [y1|] eqn:E1;
    destruct (find_parent d2 (c_round x2 - 1) p) as [y2|] eqn:E2; cbn in FP; try discriminate.
    + inversion FP as [Ey]. apply find_parent_Some in E1 as (A1 & _ & _). apply find_parent_Some in E2 as (A2 & _ & _).
      pose proof (di_above _ _ _ I1 y1 A1) as Ab1.
      fold (below l1 y1) in F1. fold (below l2 y2) in F2.
      assert (BB : below l1 y1 = below l2 y2).
      { rewrite !below_wm by (rewrite <- ?(hround _ _ Ey); lia). rewrite <- (hround _ _ Ey), <- (horigin _ _ Ey).
        specialize (WE (c_origin y1)). apply eq_true_iff_eq. rewrite !N.leb_le. lia. }
      rewrite <- (hdigest _ _ Ey), <- BB in F2.
      destruct (memN (c_digest y1) seen || below l1 y1).
      * eapply IH; [exact Hps'| | | |exact F1|exact F2]; assumption.
      * eapply IH; [exact Hps'| | | |exact F1|exact F2].
        { intros z [<-|Hz]; [assumption|apply J1; assumption]. }
        { intros z [<-|Hz]; [assumption|apply J2; assumption]. }
        { cbn [map]. congruence. }
    + eapply IH; [exact Hps'| | | |exact F1|exact F2]; assumption.
Qed.

Lemma dfs_sim d1 d2 l1 l2 gc stop : dagInv G d1 gc -> dagInv G d2 gc -> wm_eqv l1 l2 gc ->
  forall f1 f2 st1 st2 seen r1 r2, incl st1 d1 -> incl st2 d2 -> map c_header st1 = map c_header st2 ->
  dfs d1 l1 stop f1 st1 seen = Some r1 -> dfs d2 l2 stop f2 st2 seen = Some r2 ->
  map c_header r1 = map c_header r2.
Proof.
  intros I1 I2 WE. induction f1 as [|f1 IH]; intros f2 st1 st2 seen r1 r2 J1 J2 ES D1 D2.
  - destruct st1 as [|x1 st1]; [|discriminate]. destruct st2 as [|x2 st2]; [|discriminate].
    cbn in D1. destruct f2; cbn in D2; inversion D1; inversion D2; reflexivity.
  - destruct st1 as [|x1 st1], st2 as [|x2 st2]; try discriminate.
    { cbn in D1. destruct f2; cbn in D2; inversion D1; inversion D2; reflexivity. }
    destruct f2 as [|f2]; [discriminate|]. cbn [dfs] in D1, D2.
    inversion ES as [[Ex ES']]. rewrite <- (hround _ _ Ex) in D2 at 1.
    assert (H1 : In x1 d1) by (apply J1; left; reflexivity).
    assert (H2 : In x2 d2) by (apply J2; left; reflexivity).
    assert (J1' : incl st1 d1) by (intros z Hz; apply J1; right; assumption).
    assert (J2' : incl st2 d2) by (intros z Hz; apply J2; right; assumption).
    destruct (c_round x1 =? stop).
    + destruct (dfs d1 l1 stop f1 st1 seen) as [q1|] eqn:Q1; [|discriminate].
      destruct (dfs d2 l2 stop f2 st2 seen) as [q2|] eqn:Q2; [|discriminate].
      inversion D1; inversion D2; subst. cbn [map]. f_equal; [assumption|]. eapply IH; [exact J1'|exact J2'|exact ES'|exact Q1|exact Q2].
    + destruct (fold_left (push_parent d1 l1 (c_round x1 - 1)) (c_parents x1) (st1, seen)) as [s1 n1] eqn:P1.
      destruct (fold_left (push_parent d2 l2 (c_round x2 - 1)) (c_parents x2) (st2, seen)) as [s2 n2] eqn:P2.
      destruct (dfs d1 l1 stop f1 s1 n1) as [q1|] eqn:Q1; [|discriminate].
      destruct (dfs d2 l2 stop f2 s2 n2) as [q2|] eqn:Q2; [|discriminate].
      rewrite <- (hparents _ _ Ex) in P2.
      destruct (push_sim d1 d2 l1 l2 gc x1 x2 I1 I2 H1 H2 Ex WE (c_parents x1) st1 st2 seen s1 n1 s2 n2
                  (fun _ h => h) J1' J2' ES' P1 P2) as (K1 & K2 & K3 & K4). subst n2.
      inversion D1; inversion D2; subst. cbn [map]. f_equal; [assumption|]. eapply IH; [exact K1|exact K2|exact K3|exact Q1|exact Q2].
Qed.

(* ---------- what the depth-first walk returns ---------- *)
Definition liveb (last : bmap N) (y : cert) : Prop := wm last (c_origin y) < c_round y.

(* one edge of the sub-dag: x references y, y is above its author's watermark, x is above the stop round *)
Definition edge (d : dag) (last : bmap N) (stop : N) (x y : cert) : Prop :=
  c_round x <> stop /\ In y d /\ c_round y + 1 = c_round x /\ In (c_digest y) (c_parents x) /\ liveb last y.
Inductive ereach (d : dag) (last : bmap N) (stop : N) (x : cert) : cert -> Prop :=
| e_refl : ereach d last stop x x
| e_step y z : ereach d last stop x y -> edge d last stop y z -> ereach d last stop x z.

Lemma find_parent_uniq d gc r y : dagInv G d gc -> In y d -> c_round y = r -> find_parent d r (c_digest y) = Some y.
Proof.
  intros I Hy Hr. destruct (find_parent d r (c_digest y)) as [z|] eqn:F.
  - apply find_parent_Some in F as (Hz & _ & Dz). f_equal. apply (uniq_header G d gc); [assumption..|].
    apply (same_digest cm G ok d gc d gc); assumption.
  - exfalso. apply (find_parent_None _ _ _ F y Hy Hr). reflexivity.
Qed.

Section One.
Variables (d : dag) (last : bmap N) (gc stop : N) (L : cert).
Hypothesis I : dagInv G d gc.
Hypothesis HL : In L d.

Lemma push_spec x : In x d -> c_round x <= c_round L ->
  forall ps st seen st' seen', (forall p, In p ps -> In p (c_parents x)) -> c_round x <> stop ->
  fold_left (push_parent d last (c_round x - 1)) ps (st, seen) = (st', seen') ->
  exists new, st' = new ++ st /\ seen' = map c_digest new ++ seen /\
    (forall y, In y new -> edge d last stop x y /\ ~ In (c_digest y) seen) /\
    NoDup (map c_digest new) /\
    (forall y, In (c_digest y) ps -> edge d last stop x y -> In (c_digest y) seen').
Proof.
  intros Hx HxL. induction ps as [|p ps IH]; intros st seen st' seen' Hps Hst F.
  - cbn in F. inversion F; subst. exists []. split; [reflexivity|]. split; [reflexivity|].
    split; [intros y []|]. split; [constructor|]. intros y [].
  - assert (Hps' : forall p0, In p0 ps -> In p0 (c_parents x)) by (intros; apply Hps; right; assumption).
    cbn [fold_left] in F. unfold push_parent at 2 in F. cbn [fst snd] in F.
    pose proof (di_above _ _ _ I x Hx) as Abx.
    destruct (find_parent d (c_round x - 1) p) as [y|] eqn:EF.
    2:{ destruct (IH _ _ _ _ Hps' Hst F) as (new & A & B & C & D & E0). exists new.
        split; [assumption|]. split; [assumption|]. split; [assumption|]. split; [assumption|].
        intros y [Ey|Hy] (Hs & Hyd & Hyr & Hyp & Hyl); [|apply E0; [assumption|repeat split; assumption]].
        exfalso. apply (find_parent_None _ _ _ EF y Hyd); [lia|congruence]. }
    pose proof (find_parent_Some _ _ _ _ EF) as (Hy & Hyr & Hyd).
    pose proof (di_above _ _ _ I y Hy) as Aby.
    fold (below last y) in F. rewrite below_wm in F by lia.
    destruct (memN (c_digest y) seen || (c_round y <=? wm last (c_origin y))) eqn:EC.
    + destruct (IH _ _ _ _ Hps' Hst F) as (new & A & B & C & D & E0). exists new.
      split; [assumption|]. split; [assumption|]. split; [assumption|]. split; [assumption|].
      intros z [Ez|Hz] Hedge; [|apply E0; assumption]. destruct Hedge as (Hs & Hzd & Hzr & Hzp & Hzl).
      assert (z = y).
      { apply (uniq_header G d gc); [assumption..|]. apply (same_digest cm G ok d gc d gc); try assumption. congruence. }
      subst z. apply orb_true_iff in EC as [EC|EC].
      * rewrite B. apply in_or_app. right. apply memN_In. assumption.
      * apply N.leb_le in EC. unfold liveb in Hzl. lia.
    + apply orb_false_iff in EC as [EC1 EC2]. apply memN_nIn in EC1. apply N.leb_gt in EC2.
      destruct (IH _ _ _ _ Hps' Hst F) as (new & A & B & C & D & E0). exists (new ++ [y]).
      split; [rewrite A, <- app_assoc; reflexivity|].
      split; [rewrite B, map_app, <- app_assoc; reflexivity|].
      assert (Eyx : edge d last stop x y).
      { split; [assumption|]. split; [assumption|]. split; [lia|]. split; [|exact EC2].
        rewrite Hyd. apply Hps. left. reflexivity. }
      split; [|split].
      * intros z Hz. apply in_app_or in Hz as [Hz|[<-|[]]].
        { destruct (C z Hz) as [C1 C2]. split; [assumption|]. intros X. apply C2. right. assumption. }
        { split; assumption. }
      * rewrite map_app. apply NoDup_app_intro; [assumption|constructor; [simpl; tauto|constructor]|].
        intros g Hg [<-|[]]. apply in_map_iff in Hg as (z & Ez & Hz). destruct (C z Hz) as [_ C2].
        apply C2. left. congruence.
      * intros z [Ez|Hz] Hedge; [|apply E0; assumption].
        rewrite B. apply in_or_app. right. left. congruence.
Qed.

Lemma dfs_spec fuel : forall stack seen R,
  dfs d last stop fuel stack seen = Some R ->
  (forall x, In x stack -> In x d /\ c_round x <= c_round L /\ (x = L \/ In (c_digest x) seen)) ->
  NoDup (map c_digest stack) ->
  (forall y, In (c_digest y) seen -> In y d -> c_round y < c_round L) ->
  NoDup (map c_digest R) /\
  (forall x, In x stack -> In x R) /\
  (forall y, In y R -> exists x, In x stack /\ ereach d last stop x y) /\
  (forall y, In y R -> In y stack \/ ~ In (c_digest y) seen) /\
  (forall x y, In x R -> edge d last stop x y -> In (c_digest y) seen \/ In y R).
Proof.
  induction fuel as [|fuel IH]; intros stack seen R D Hst ND Hseen.
  - destruct stack as [|x stack]; [|discriminate]. cbn in D. inversion D; subst.
    split; [constructor|]. split; [intros ? []|]. split; [intros ? []|]. split; [intros ? []|]. intros ? ? [].
  - destruct stack as [|x stack].
    { cbn in D. inversion D; subst.
      split; [constructor|]. split; [intros ? []|]. split; [intros ? []|]. split; [intros ? []|]. intros ? ? []. }
    cbn [dfs] in D. destruct (Hst x (or_introl eq_refl)) as (Hx & HxL & HxS).
    cbn [map] in ND. inversion ND as [|? ? Hxn ND']; subst.
    assert (exists new stack' seen',
      (if c_round x =? stop then (stack, seen)
       else fold_left (push_parent d last (c_round x - 1)) (c_parents x) (stack, seen)) = (stack', seen') /\
      stack' = new ++ stack /\ seen' = map c_digest new ++ seen /\
      (forall y, In y new -> edge d last stop x y /\ ~ In (c_digest y) seen) /\
      NoDup (map c_digest new) /\
      (forall y, edge d last stop x y -> In (c_digest y) seen')) as (new & stack' & seen' & EQ & ES & EN & HN & NDN & HE).
    { destruct (N.eqb_spec (c_round x) stop) as [Est|Est].
      - exists [], stack, seen. repeat (split; [reflexivity|]). split; [intros ? []|]. split; [constructor|].
        intros y (Q & _). contradiction.
      - destruct (fold_left (push_parent d last (c_round x - 1)) (c_parents x) (stack, seen)) as [s' n'] eqn:F.
        destruct (push_spec x Hx HxL (c_parents x) stack seen s' n' (fun _ h => h) Est F) as (new & A & B & C & D0 & E0).
        exists new, s', n'. split; [reflexivity|]. split; [assumption|]. split; [assumption|]. split; [assumption|].
        split; [assumption|]. intros y Hy. apply E0; [|assumption]. destruct Hy as (_ & _ & _ & Q & _). exact Q. }
    rewrite EQ in D. destruct (dfs d last stop fuel stack' seen') as [R'|] eqn:D'; [|discriminate].
    inversion D; subst R. clear D EQ.
    assert (NEWR : forall y, In y new -> In y d /\ c_round y < c_round L).
    { intros y Hy. destruct (HN y Hy) as ((_ & Q & Q2 & _) & _). split; [assumption|lia]. }
    assert (NEWL : forall y, In y new -> y <> L) by (intros y Hy ->; destruct (NEWR L Hy); lia).
    assert (HST' : forall y, In y stack' -> In y d /\ c_round y <= c_round L /\ (y = L \/ In (c_digest y) seen')).
    { intros y Hy. rewrite ES in Hy. apply in_app_or in Hy as [Hy|Hy].
      - destruct (NEWR y Hy). split; [assumption|]. split; [lia|]. right. rewrite EN. apply in_or_app. left.
        apply in_map. assumption.
      - destruct (Hst y (or_intror Hy)) as (A & B & C). split; [assumption|]. split; [assumption|].
        destruct C as [C|C]; [left; assumption|right]. rewrite EN. apply in_or_app. right. assumption. }
    assert (HND' : NoDup (map c_digest stack')).
    { rewrite ES, map_app. apply NoDup_app_intro; [assumption|assumption|].
      intros g Hg Hg2. apply in_map_iff in Hg as (y & Ey & Hy). apply in_map_iff in Hg2 as (z & Ez & Hz).
      destruct (Hst z (or_intror Hz)) as (Hzd & HzL & [->|C]).
      - destruct (NEWR y Hy) as [Hyd Hyr]. assert (y = L); [|apply (NEWL y Hy); assumption].
        apply (uniq_header G d gc); [assumption..|]. apply (same_digest cm G ok d gc d gc); try assumption. congruence.
      - destruct (HN y Hy) as [_ Q]. apply Q. congruence. }
    assert (HSEEN' : forall y, In (c_digest y) seen' -> In y d -> c_round y < c_round L).
    { intros y Hy Hyd. rewrite EN in Hy. apply in_app_or in Hy as [Hy|Hy]; [|apply Hseen; assumption].
      apply in_map_iff in Hy as (z & Ez & Hz). destruct (NEWR z Hz) as [Hzd Hzr].
      assert (y = z); [|subst; assumption].
      apply (uniq_header G d gc); [assumption..|]. apply (same_digest cm G ok d gc d gc); try assumption. congruence. }
    destruct (IH stack' seen' R' D' HST' HND' HSEEN') as (A1 & A2 & A3 & A4 & A5).
    assert (XNOT : ~ In (c_digest x) (map c_digest R')).
    { intros X. apply in_map_iff in X as (y & Ey & Hy).
      assert (Hyd : In y d).
      { destruct (A3 y Hy) as (w & Hw & P). destruct (HST' w Hw) as (Hwd & _). clear - P Hwd.
        induction P as [|? ? P IH E]; [assumption|]. destruct E as (_ & E & _). exact E. }
      assert (y = x).
      { apply (uniq_header G d gc); [assumption..|]. apply (same_digest cm G ok d gc d gc); try assumption. }
      subst y. destruct (A4 x Hy) as [Hs|Hs].
      - rewrite ES in Hs. apply in_app_or in Hs as [Hs|Hs].
        + destruct (HN x Hs) as [(_ & _ & Q & _) _]. lia.
        + apply Hxn. apply in_map. assumption.
      - destruct HxS as [->|HxS].
        + (* L is only ever on the stack as the start *)
          destruct (A3 L Hy) as (w & Hw & P).
          destruct (HST' w Hw) as (Hwd & HwL & _).
          assert (EQR : forall a b, ereach d last stop a b -> c_round b <= c_round a /\ (c_round b = c_round a -> a = b)).
          { clear. intros a b P. induction P as [|b z P IH E]; [split; [lia|reflexivity]|].
            destruct E as (_ & _ & E & _). destruct IH as [IH1 IH2]. split; [lia|]. intros Q. lia. }
          destruct (EQR _ _ P) as [Q1 Q2]. assert (w = L) by (apply Q2; lia). subst w.
          rewrite ES in Hw. apply in_app_or in Hw as [Hw|Hw]; [apply (NEWL L Hw); reflexivity|].
          apply Hxn. apply in_map. assumption.
        + apply Hs. rewrite EN. apply in_or_app. right. assumption. }
    split; [cbn [map]; constructor; assumption|]. split; [|split; [|split]].
    + intros y [<-|Hy]; [left; reflexivity|right]. apply A2. rewrite ES. apply in_or_app. right. assumption.
    + intros y [<-|Hy]; [exists x; split; [left; reflexivity|apply e_refl]|].
      destruct (A3 y Hy) as (w & Hw & P). rewrite ES in Hw. apply in_app_or in Hw as [Hw|Hw].
      * exists x. split; [left; reflexivity|]. destruct (HN w Hw) as [E _].
        clear - P E. induction P as [|? ? P IH E2]; [eapply e_step; [apply e_refl|exact E]|].
        eapply e_step; [apply IH|exact E2].
      * exists w. split; [right; assumption|assumption].
    + intros y [<-|Hy]; [left; left; reflexivity|]. destruct (A4 y Hy) as [Hs|Hs].
      * rewrite ES in Hs. apply in_app_or in Hs as [Hs|Hs]; [right; apply (HN y Hs)|left; right; assumption].
      * right. intros X. apply Hs. rewrite EN. apply in_or_app. right. assumption.
    + intros z y [<-|Hz] Hedge.
      * specialize (HE y Hedge). rewrite EN in HE. apply in_app_or in HE as [HE|HE]; [|left; assumption].
        right. right. apply A2. apply in_map_iff in HE as (w & Ew & Hw). rewrite ES. apply in_or_app. left.
        destruct Hedge as (_ & Hyd & _). destruct (NEWR w Hw) as [Hwd _].
        assert (w = y); [|subst; assumption].
        apply (uniq_header G d gc); [assumption..|]. apply (same_digest cm G ok d gc d gc); assumption.
      * destruct (A5 z y Hz Hedge) as [Q|Q]; [|right; right; assumption].
        rewrite EN in Q. apply in_app_or in Q as [Q|Q]; [|left; assumption].
        right. right. apply A2. apply in_map_iff in Q as (w & Ew & Hw). rewrite ES. apply in_or_app. left.
        destruct Hedge as (_ & Hyd & _). destruct (NEWR w Hw) as [Hwd _].
        assert (w = y); [|subst; assumption].
        apply (uniq_header G d gc); [assumption..|]. apply (same_digest cm G ok d gc d gc); assumption.
Qed.

Lemma dfs_top fuel R : dfs d last stop fuel [L] [] = Some R ->
  NoDup (map c_digest R) /\ In L R /\
  (forall y, In y R <-> ereach d last stop L y).
Proof.
  intros D. destruct (dfs_spec fuel [L] [] R D) as (A1 & A2 & A3 & A4 & A5).
  - intros x [<-|[]]. split; [assumption|]. split; [lia|left; reflexivity].
  - constructor; [simpl; tauto|constructor].
  - intros y [].
  - split; [assumption|]. split; [apply A2; left; reflexivity|]. intros y. split.
    + intros Hy. destruct (A3 y Hy) as (x & [<-|[]] & P). exact P.
    + intros P. induction P as [|b z P IH E]; [apply A2; left; reflexivity|].
      destruct (A5 b z IH E) as [[]|Q]. exact Q.
Qed.

Lemma ereach_facts y : ereach d last stop L y ->
  y = L \/ (In y d /\ c_round y < c_round L /\ liveb last y).
Proof.
  intros P. induction P as [|b z P IH E]; [left; reflexivity|]. right.
  destruct E as (_ & E1 & E2 & _ & E3). split; [assumption|]. split; [|assumption].
  destruct IH as [->|(_ & Q & _)]; lia.
Qed.
End One.
End D.
