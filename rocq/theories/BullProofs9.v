From Verif Require Import Util Types CommitteeModel CommitteeProofs CertModel LeaderModel LeaderProofs GasModel BullModel BullSpec BullProofs1 BullProofs2 BullProofs3 BullProofs4 BullProofs5 BullProofs6.
Local Open Scope N_scope.

Section Progress.
Variable fsqrt : N -> N.
Variable choose : list authority -> N -> option authority.
Variable fold_seed : N -> N -> N -> N.
Variable legacy_rand : N -> N.
Variable epoch_root : N -> N.
Variable seed_active : N -> bool.
Variable cm : committee.
Variables gc_depth num pct : N.
Variable G : header -> Prop.
Hypothesis wf : committee_wf cm.
Hypothesis ok : dag_ok cm G.
Hypothesis sqrt0 : fsqrt 0 = 0.
Hypothesis pct_ok : pct <= 33.
Hypothesis choose_in : forall l r, l <> [] -> exists a, choose l r = Some a /\ In a l.

Notation Inv := (Inv fsqrt epoch_root cm gc_depth pct G).
Notation commit_loop := (commit_loop fsqrt choose fold_seed legacy_rand seed_active cm gc_depth num pct).
Notation commit_leader := (commit_leader fsqrt choose fold_seed legacy_rand seed_active cm gc_depth num pct).
Notation process_certificate := (process_certificate fsqrt choose fold_seed legacy_rand seed_active cm gc_depth num pct).
Notation new_certificate := (new_certificate fsqrt choose fold_seed legacy_rand seed_active cm gc_depth num pct).
Notation leader := (leader cm choose).

(* nothing of round r is left to commit *)
Definition settled (s : bstate) (r : N) : Prop :=
  r <= b_committed s \/
  forall X, In X (b_dag s) -> c_round X = r ->
    (exists a, leader (b_table s) r = Some a /\ a_id a = c_origin X) ->
    group_power cm (map c_origin (supporters (b_dag s) (r + 1) (c_digest X))) < cm_validity cm.

Lemma commit_leader_settled s chain r s' o ds : Inv s chain -> r mod 2 = 0 -> b_committed s < r ->
  commit_leader s r = Ok (s', o, ds) -> o <> OScheduleChanged -> settled s' r.
Proof.
  intros I Hr Hc E Ho. unfold BullModel.commit_leader in E.
  destruct (leader (b_table s) r) as [a|] eqn:Ea; [|discriminate].
  destruct (find_cert (b_dag s) r (a_id a)) as [X|] eqn:F.
  2:{ inversion E; subst. right. intros Y HY Yr (b & Hb & Yo). exfalso.
      apply (find_cert_None _ _ _ F Y HY Yr). congruence. }
  pose proof (find_cert_Some _ _ _ _ F) as (HX & HXr & HXo).
  destruct (round_table (b_dag s) (r + 1)) as [|c0 t0] eqn:RT; [discriminate|].
  destruct (N.ltb_spec (group_power cm (map c_origin (supporters (b_dag s) (r + 1) (c_digest X)))) (cm_validity cm)) as [L|L].
  { inversion E; subst s' o ds. right. intros Y HY Yr (b & Hb & Yo).
    assert (Y = X) by (apply (uniq_slot G _ _ _ _ (i_dag _ _ _ _ _ _ _ _ I)); congruence). subst Y. exact L. }
  assert (A : anchored choose cm s X).
  { split; [assumption|]. rewrite HXr. split; [assumption|]. split; [assumption|]. split; [exists a; auto|].
    unfold BullProofs1.supported. rewrite HXr. exact L. }
  unfold order_leaders in E. rewrite HXr, Hr in E. cbn [N.eqb negb] in E.
  destruct (walk choose cm _ _ _ _ _) as [l|] eqn:W; [|discriminate].
  apply walk_wrel in W. rewrite <- HXr in W at 1.
  destruct (commit_all_spec fsqrt choose fold_seed legacy_rand epoch_root seed_active cm gc_depth num pct G
     wf ok sqrt0 pct_ok choose_in l s chain X I A W) as (s2 & o2 & ds2 & E' & _ & _ & O' & _).
  rewrite E in E'. inversion E'; subst. left. destruct O' as [[_ O']|[O' _]]; [lia|contradiction].
Qed.

Lemma commit_loop_settled fuel : forall s chain r s' o ds, Inv s chain -> r mod 2 = 0 -> b_committed s < r ->
  round_table (b_dag s) (r + 1) <> [] -> commit_loop fuel s r = Ok (s', o, ds) -> settled s' r.
Proof.
  induction fuel as [|fuel IH]; intros s chain r s' o ds I Hr Hc HT E; [discriminate|]. cbn [BullModel.commit_loop] in E.
  destruct (commit_leader_spec fsqrt choose fold_seed legacy_rand epoch_root seed_active cm gc_depth num pct G
     wf ok sqrt0 pct_ok choose_in s chain r I Hr Hc HT) as (s1 & o1 & ds1 & E1 & M & H).
  pose proof (commit_leader_settled s chain r s1 o1 ds1 I Hr Hc E1) as ST. rewrite E1 in E.
  destruct o1; try (inversion E; subst; apply ST; discriminate).
  destruct (H eq_refl) as (H1 & H2 & H3).
  destruct (commit_loop fuel s1 r) as [[[s2 o2] ds2]|] eqn:E2; [|discriminate]. inversion E; subst.
  eapply (IH s1); try eassumption. eapply msteps_inv; try eassumption.
Qed.

Lemma new_certificate_settled s chain x s' ds : Inv s chain -> G (c_header x) -> c_epoch x = cm_epoch cm ->
  new_certificate s x = Ok (s', ds) -> (c_round x - 1) mod 2 = 0 -> 2 <= c_round x - 1 -> settled s' (c_round x - 1).
Proof.
  intros I Gx Ep E Ev R2. unfold BullModel.new_certificate in E. rewrite Ep, N.eqb_refl in E.
  destruct (process_certificate s x) as [[[s2 o] ds2]|] eqn:E2; [|discriminate]. inversion E; subst s2 ds2. clear E.
  unfold BullModel.process_certificate in E2.
  destruct (try_insert_in_dag (b_dag s) (b_last s) (b_gc s) x true) as [[d ins]|] eqn:TI; [|discriminate].
  assert (T : dagInv G d (b_gc s) /\ (d = b_dag s /\ ins = false /\ c_round x <= b_gc s \/
      d = dag_insert x (b_dag s) /\ b_gc s < c_round x /\ ins = (wm (b_last s) (c_origin x) <? c_round x))).
  { split.
    - pose proof (try_insert_spec fsqrt choose fold_seed legacy_rand epoch_root seed_active cm gc_depth pct G ok sqrt0 pct_ok choose_in s chain x I Gx) as T. rewrite TI in T. apply T.
    - unfold try_insert_in_dag in TI. destruct (N.leb_spec (c_round x) (b_gc s)); [inversion TI; left; auto|].
      destruct (check_parents _ _ _); [discriminate|]. destruct (find_cert _ _ _) as [y|];
        [destruct (c_digest y =? c_digest x); [|discriminate]|]; inversion TI; right; auto. }
  destruct T as [DI T].
  assert (I0 : Inv (with_dag s d) chain) by (eapply with_dag_inv; eassumption).
  assert (GC : b_gc s = b_committed s - gc_depth) by apply I.
  pose proof (wm_le_committed fsqrt fold_seed legacy_rand epoch_root seed_active cm gc_depth pct G sqrt0 pct_ok s chain (c_origin x) I) as WM.
  destruct ins; cbn [negb] in E2.
  2:{ inversion E2; subst. left. cbn [with_dag b_committed]. destruct T as [(_ & _ & T)|(_ & _ & T)]; [lia|].
      symmetry in T. apply N.ltb_ge in T. lia. }
  destruct T as [(_ & T & _)|(-> & Hg & _)]; [discriminate|].
  rewrite Ev in E2. cbn [N.eqb negb orb] in E2. destruct (N.ltb_spec (c_round x - 1) 2); [lia|].
  destruct (N.leb_spec (c_round x - 1) (b_committed (with_dag s (dag_insert x (b_dag s))))) as [L|L].
  { inversion E2; subst. left. exact L. }
  destruct (commit_loop _ _ _) as [[[s3 o3] ds3]|] eqn:E3; [|discriminate].
  assert (s' = s3) by (destruct ds3; inversion E2; reflexivity). subst s3.
  eapply commit_loop_settled; [exact I0|exact Ev|exact L| |exact E3].
  replace (c_round x - 1 + 1) with (c_round x) by lia.
  assert (HIN : In x (round_table (b_dag (with_dag s (dag_insert x (b_dag s)))) (c_round x))).
  { apply round_table_In. split; [|reflexivity]. cbn [with_dag b_dag]. apply dag_insert_In. auto. }
  intros X. rewrite X in HIN. contradiction.
Qed.
End Progress.
