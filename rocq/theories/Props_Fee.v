(* C40: gas settlement *)
From Verif Require Import Util FeeModel FeeSpec FeeProofs.
Local Open Scope N_scope.

(* For every pair of 64-bit gas figures the computed penalty is the documented formula on exact
   integers: nothing wraps in u128 and the u64 conversion never falls back. *)
Theorem C40_penalty_exact :
  forall limit used : N, limit < 2 ^ 64 -> used < 2 ^ 64 ->
    calculate_gas_penalty limit used = penalty_spec limit used.
Proof. exact penalty_exact. Qed.

(* The penalty is never more than the unused gas, is zero from 10% usage on and for limits up to
   210000, and never grows when a transaction uses more gas. *)
Theorem C40_penalty_shape :
  forall limit used used' : N, limit < 2 ^ 64 -> used' < 2 ^ 64 -> used <= used' ->
    calculate_gas_penalty limit used <= limit - used /\
    (limit <= 210000 \/ limit <= 10 * used -> calculate_gas_penalty limit used = 0) /\
    calculate_gas_penalty limit used' <= calculate_gas_penalty limit used.
Proof.
  intros l u v Hl Hv Huv. rewrite !penalty_exact by lia. split; [apply penalty_le|].
  split; [|apply penalty_mono; auto].
  intros H. unfold penalty_spec.
  assert (E : (l <=? 210000) || (l <=? 10 * u) = true).
  { apply orb_true_iff. destruct H; [left|right]; apply N.leb_le; auto. }
  rewrite E. reflexivity.
Qed.

(* No coin is created or lost by fees: the up-front debit, whatever value-preserving execution
   follows, and the two settlement hooks together leave the sum of all balances as it was, also when
   caller, beneficiary and fee collector coincide. *)
Theorem C40_fees_conserve :
  forall (ovf : N -> N -> N) (x : txctx) (b b' : N -> N) (U : list N),
    valid_tx x -> NoDup U ->
    In (x_caller x) U -> In (x_beneficiary x) U -> In (x_collector x) U ->
    total b U < 2 ^ 256 ->
    x_gas_limit x * x_price x <= b (x_caller x) ->
    total b' U = total (deduct_caller x b) U ->
    total (settle ovf x b') U = total b U.
Proof.
  intros ovf x b b' U V Hn H1 H2 H3 Hlt Hb He.
  pose proof (deduct_total x b U V Hn H1 Hb) as D.
  rewrite settle_total; auto; lia.
Qed.

(* Who gets what, for three different accounts: the sender is left with the debit of the charged
   gas only (used gas after refunds plus the penalty), the beneficiary gets the priority fee, the
   collector the base fee and the penalty; nobody else is touched. *)
Theorem C40_fee_shares :
  forall (ovf : N -> N -> N) (x : txctx) (b : N -> N) (U : list N),
    valid_tx x -> NoDup U ->
    In (x_caller x) U -> In (x_beneficiary x) U -> In (x_collector x) U ->
    x_caller x <> x_beneficiary x -> x_caller x <> x_collector x ->
    x_beneficiary x <> x_collector x ->
    total b U < 2 ^ 256 ->
    x_gas_limit x * x_price x <= b (x_caller x) ->
    let b' := settle ovf x (deduct_caller x b) in
    let used := x_spent x - x_refunded x in
    let pen := penalty_spec (x_gas_limit x) (x_spent x) in
    b' (x_caller x) + x_price x * (used + pen) = b (x_caller x) /\
    b' (x_beneficiary x) = b (x_beneficiary x) + (x_price x - x_basefee x) * used /\
    b' (x_collector x) = b (x_collector x) + x_basefee x * used + x_price x * pen /\
    used + pen <= x_gas_limit x /\
    (forall a, a <> x_caller x -> a <> x_beneficiary x -> a <> x_collector x -> b' a = b a).
Proof.
  intros ovf x b U V Hn H1 H2 H3 N1 N2 N3 Hlt Hb b' used pen.
  destruct (amounts x V) as [Pe [Ra [A1 [A2 [A3 A4]]]]].
  pose proof V as [Hs [Hl [Hsp [Hr [Hbf Hp]]]]].
  assert (Ch : charged_gas x = used + pen) by reflexivity.
  assert (Es : (x_caller x =? SYSTEM) = false) by (apply N.eqb_neq; auto).
  pose proof (total_ge b (x_caller x) U H1) as G1.
  assert (Sum : forall s, In s U -> s <> x_caller x -> b s + b (x_caller x) <= total b U).
  { clear - H1. intros s Hs Hne. induction U as [|y U IH]; [contradiction|]. simpl in *.
    destruct H1 as [->|H1].
    - destruct Hs as [E|Hs]; [exfalso; apply Hne; symmetry; exact E|]. pose proof (total_ge b s U Hs). lia.
    - destruct Hs as [->|Hs].
      + pose proof (total_ge b (x_caller x) U H1). lia.
      + specialize (IH H1 Hs). lia. }
  pose proof (Sum _ H2 (not_eq_sym N1)) as S2. pose proof (Sum _ H3 (not_eq_sym N2)) as S3.
  assert (Cost : x_price x * refund_amount x + x_price x * (used + pen) = x_gas_limit x * x_price x).
  { rewrite <- N.mul_add_distr_l, N.mul_comm. f_equal. rewrite <- Ch. exact Ra. }
  assert (Split : (x_price x - x_basefee x) * used + x_basefee x * used = x_price x * used).
  { rewrite <- N.mul_add_distr_r. f_equal. lia. }
  rewrite N.mul_add_distr_l in Cost.
  assert (Bu : x_basefee x * used <= x_price x * used) by (apply N.mul_le_mono_r; exact Hbf).
  unfold b', settle, reward_beneficiary, reimburse_caller, deduct_caller. rewrite Es. cbv zeta.
  rewrite A1, A2, A3, A4. change (gas_used x) with used. rewrite Pe. fold pen.
  set (r := refund_amount x) in *. set (p := x_price x) in *. set (bf := x_basefee x) in *.
  set (ca := x_caller x) in *. set (be := x_beneficiary x) in *. set (co := x_collector x) in *.
  set (d := fun k => if k =? ca then b k - x_gas_limit x * p else b k).
  set (b1 := if 0 <? r then credit ovf d ca (p * r) else d).
  assert (L : forall a v, a + v < 2 ^ 256 -> (a + v <? U256_LIM) = true).
  { intros; apply N.ltb_lt; auto. }
  assert (D0 : forall k, d k = if k =? ca then b ca - x_gas_limit x * p else b k).
  { intros k. unfold d. destruct (k =? ca) eqn:E; auto. apply N.eqb_eq in E as ->. auto. }
  assert (B1 : forall k, b1 k = if k =? ca then b ca - p * (used + pen) else b k).
  { intros k. unfold b1. destruct (0 <? r) eqn:E.
    - unfold credit. rewrite !D0, N.eqb_refl. rewrite L by lia.
      destruct (k =? ca); [|reflexivity]. rewrite N.mul_add_distr_l. lia.
    - rewrite D0. apply N.ltb_ge in E. assert (Z : r = 0) by lia. rewrite Z in Cost.
      rewrite N.mul_0_r in Cost. destruct (k =? ca); auto. rewrite N.mul_add_distr_l. lia. }
  assert (Qc : (co =? ca) = false) by (apply N.eqb_neq; auto).
  assert (Qb : (be =? ca) = false) by (apply N.eqb_neq; auto).
  assert (Qbc : (be =? co) = false) by (apply N.eqb_neq; auto).
  assert (Qcb : (co =? be) = false) by (apply N.eqb_neq; auto).
  set (b2 := if 0 <? pen then credit ovf b1 co (p * pen) else b1).
  assert (B2 : forall k, b2 k = if k =? co then b co + p * pen
                                else if k =? ca then b ca - p * (used + pen) else b k).
  { intros k. unfold b2. destruct (0 <? pen) eqn:E.
    - unfold credit. rewrite !B1, Qc. rewrite L by lia. destruct (k =? co); auto.
    - rewrite B1. apply N.ltb_ge in E. assert (Z : pen = 0) by lia. rewrite Z.
      destruct (k =? co) eqn:E2; auto. apply N.eqb_eq in E2 as ->. rewrite Qc. lia. }
  set (b3 := credit ovf b2 be ((p - bf) * used)).
  assert (B3 : forall k, b3 k = if k =? be then b be + (p - bf) * used
                                else if k =? co then b co + p * pen
                                else if k =? ca then b ca - p * (used + pen) else b k).
  { intros k. unfold b3, credit. rewrite !B2, Qbc, Qb. rewrite L by lia.
    destruct (k =? be); auto. }
  unfold credit. rewrite !B3, !N.eqb_refl, ?Qcb, ?Qbc, ?Qb.
  rewrite ?(N.eqb_sym ca co), ?Qc, ?(N.eqb_sym ca be), ?Qb.
  rewrite N.mul_add_distr_l.
  split; [lia|]. split; [lia|]. split; [rewrite L by lia; cbv iota; lia|].
  split; [unfold charged_gas in Ra; fold used pen in Ra; lia|].
  intros a Ha Hb' Hc. rewrite B3.
  apply N.eqb_neq in Ha, Hb', Hc. rewrite Ha, Hb', Hc. reflexivity.
Qed.

(* System calls move nothing. *)
Theorem C40_system_calls_free :
  forall (ovf : N -> N -> N) (x : txctx) (b : N -> N),
    x_caller x = SYSTEM -> settle ovf x (deduct_caller x b) = b.
Proof.
  intros ovf x b H. unfold settle, reward_beneficiary, reimburse_caller, deduct_caller.
  rewrite H, N.eqb_refl. reflexivity.
Qed.

(* Finding: because the penalty falls faster than the usage rises, wasting gas can lower the bill. *)
Theorem C40_using_less_never_costs_more_refuted :
  exists limit used used', used < used' /\ used' <= limit /\ limit < 2 ^ 64 /\
    used' + calculate_gas_penalty limit used' < used + calculate_gas_penalty limit used.
Proof. exists 1000000, 21000, 100000. vm_compute. repeat split; try reflexivity. discriminate. Qed.

(* ---------- concrete instance: the 5%-usage row of the documentation's table ---------- *)
Definition ex_tx : txctx := mkTx 1 420000 10 7 2 3 21000 1000.
Definition ex_bal : N -> N := fun k => if k =? 1 then 5000000 else 0.
Example C40_ex :
  valid_tx ex_tx /\ calculate_gas_penalty 420000 21000 = 99750 /\
  let b' := settle (fun _ _ => 0) ex_tx (deduct_caller ex_tx ex_bal) in
  b' 1 = 5000000 - 10 * (20000 + 99750) /\ b' 2 = 3 * 20000 /\ b' 3 = 7 * 20000 + 10 * 99750.
Proof.
  split; [|split; [vm_compute; reflexivity|vm_compute; repeat split; reflexivity]].
  unfold valid_tx. cbn. split; [discriminate|]. repeat split; try reflexivity; vm_compute; discriminate.
Qed.
