(* Proofs about FeeModel.v *)
From Verif Require Import Util FeeModel FeeSpec.
Local Open Scope N_scope.

Lemma mul128_small a b : a * b < U128_LIM -> mul128 a b = a * b.
Proof. intros H. unfold mul128. apply N.mod_small; auto. Qed.

Lemma ratio_iff l u : 0 < l -> (THRESHOLD <=? PRECISION * u / l) = (l <=? 10 * u).
Proof.
  intros Hl. unfold THRESHOLD, PRECISION.
  change (10 ^ 8) with 100000000. change (10 ^ 9) with 1000000000.
  destruct (l <=? 10 * u) eqn:E.
  - apply N.leb_le in E. apply N.leb_le. apply N.div_le_lower_bound; lia.
  - apply N.leb_gt in E. apply N.leb_gt. apply N.div_lt_upper_bound; lia.
Qed.

Lemma quad_bound i n : i <= 100000000 -> i * i * n / 10000000000000000 <= n.
Proof.
  intros Hi. apply N.div_le_upper_bound; [lia|].
  apply N.le_trans with (10000000000000000 * n); [|lia].
  apply N.mul_le_mono_r.
  apply N.le_trans with (100000000 * 100000000); [apply N.mul_le_mono; auto|reflexivity].
Qed.

Lemma penalty_exact limit used : limit < 2 ^ 64 -> used < 2 ^ 64 ->
  calculate_gas_penalty limit used = penalty_spec limit used.
Proof.
  intros Hl Hu. unfold calculate_gas_penalty, penalty_spec, MIN_GAS_LIMIT_THRESHOLD.
  destruct (limit <=? 210000) eqn:E0; [reflexivity|]. apply N.leb_gt in E0. cbn [orb].
  assert (M1 : mul128 PRECISION used = PRECISION * used).
  { apply mul128_small. apply N.lt_trans with (PRECISION * 2 ^ 64); [|reflexivity].
    apply N.mul_lt_mono_pos_l; [reflexivity|auto]. }
  rewrite M1. cbv zeta. rewrite ratio_iff by lia.
  destruct (limit <=? 10 * used) eqn:E1; [reflexivity|]. apply N.leb_gt in E1.
  change PRECISION with 1000000000. change THRESHOLD with 100000000.
  change THRESHOLD_SQUARED with 10000000000000000.
  set (r := 1000000000 * used / limit). set (i := 100000000 - r).
  assert (Hi : i <= 100000000) by (unfold i; lia).
  assert (Hii : i * i <= 10000000000000000).
  { apply N.le_trans with (100000000 * 100000000); [apply N.mul_le_mono; auto|reflexivity]. }
  assert (M2 : mul128 i i = i * i).
  { apply mul128_small. apply N.le_lt_trans with 10000000000000000; [auto|reflexivity]. }
  rewrite M2.
  assert (M3 : mul128 (i * i) (limit - used) = i * i * (limit - used)).
  { apply mul128_small. apply N.le_lt_trans with (10000000000000000 * 2 ^ 64); [|reflexivity].
    apply N.mul_le_mono; [auto|]. apply N.le_trans with limit; [apply N.le_sub_l|]. apply N.lt_le_incl; exact Hl. }
  rewrite M3.
  pose proof (quad_bound i (limit - used) Hi) as Q.
  assert (L : (i * i * (limit - used) / 10000000000000000 <? U64_LIM) = true).
  { apply N.ltb_lt. apply N.le_lt_trans with (limit - used); [exact Q|]. apply N.le_lt_trans with limit; [apply N.le_sub_l|exact Hl]. }
  rewrite L. rewrite N.pow_2_r. reflexivity.
Qed.

Lemma penalty_le limit used : penalty_spec limit used <= limit - used.
Proof.
  unfold penalty_spec. destruct ((limit <=? 210000) || (limit <=? 10 * used)); [apply N.le_0_l|].
  rewrite N.pow_2_r. apply quad_bound. apply N.le_sub_l.
Qed.

Lemma penalty_mono limit u v : u <= v -> penalty_spec limit v <= penalty_spec limit u.
Proof.
  intros H. unfold penalty_spec. destruct (limit <=? 210000) eqn:E0; [cbn; lia|]. cbn [orb].
  apply N.leb_gt in E0.
  destruct (limit <=? 10 * v) eqn:E1; [lia|]. apply N.leb_gt in E1.
  assert (E2 : (limit <=? 10 * u) = false) by (apply N.leb_gt; lia). rewrite E2.
  apply N.div_le_mono; [lia|]. apply N.mul_le_mono; [|lia].
  apply N.pow_le_mono_l.
  assert (1000000000 * u / limit <= 1000000000 * v / limit); [|lia].
  apply N.div_le_mono; lia.
Qed.

Lemma total_upd b (a v : N) U : NoDup U -> In a U ->
  total (fun k => if k =? a then v else b k) U + b a = total b U + v.
Proof.
  induction U as [|x U IH]; simpl; intros Hn Hi; [contradiction|]. inversion Hn; subst.
  destruct (N.eq_dec x a) as [->|Hne].
  - rewrite N.eqb_refl.
    assert (E : total (fun k => if k =? a then v else b k) U = total b U).
    { clear - H1. induction U as [|y U IH]; simpl; auto.
      assert (y =? a = false) as -> by (apply N.eqb_neq; intros ->; apply H1; left; auto).
      rewrite IH; auto. intros H; apply H1; right; auto. }
    lia.
  - destruct Hi as [Hi|Hi]; [congruence|]. specialize (IH H2 Hi).
    assert (x =? a = false) as -> by (apply N.eqb_neq; auto). lia.
Qed.

Lemma total_ge b a U : In a U -> b a <= total b U.
Proof. induction U as [|x U IH]; simpl; [contradiction|]. intros [->|H]; [lia|]. specialize (IH H). lia. Qed.


Lemma credit_total ovf b a v U : NoDup U -> In a U -> total b U + v < U256_LIM ->
  total (credit ovf b a v) U = total b U + v.
Proof.
  intros Hn Hi Hl. pose proof (total_ge b a U Hi) as G. unfold credit.
  assert (E : (b a + v <? U256_LIM) = true) by (apply N.ltb_lt; lia). rewrite E.
  pose proof (total_upd b a (b a + v) U Hn Hi). lia.
Qed.

Lemma sat_exact a b : a * b < U128_LIM -> sat_mul128 a b = a * b.
Proof. intros H. unfold sat_mul128. apply N.min_l. unfold U128_LIM in *. lia. Qed.

Lemma amounts x : valid_tx x ->
  penalty_gas x = penalty_spec (x_gas_limit x) (x_spent x) /\
  refund_amount x + charged_gas x = x_gas_limit x /\
  sat_mul128 (x_price x) (refund_amount x) = x_price x * refund_amount x /\
  sat_mul128 (x_price x) (penalty_gas x) = x_price x * penalty_gas x /\
  sat_mul128 (x_price x - x_basefee x) (gas_used x) = (x_price x - x_basefee x) * gas_used x /\
  sat_mul128 (x_basefee x) (gas_used x) = x_basefee x * gas_used x.
Proof.
  intros [Hs [Hl [Hsp [Hr [Hb Hp]]]]].
  assert (Pe : penalty_gas x = penalty_spec (x_gas_limit x) (x_spent x)).
  { apply penalty_exact; lia. }
  pose proof (penalty_le (x_gas_limit x) (x_spent x)) as Ple.
  split; [exact Pe|].
  assert (Ra : refund_amount x + charged_gas x = x_gas_limit x).
  { unfold refund_amount, charged_gas, gas_used. rewrite Pe. lia. }
  split; [exact Ra|].
  assert (K : forall p g, p <= x_price x -> g <= x_gas_limit x -> p * g < U128_LIM).
  { intros p g H1 H2. apply N.le_lt_trans with (x_price x * x_gas_limit x).
    - apply N.mul_le_mono; auto.
    - rewrite N.mul_comm. exact Hp. }
  split; [apply sat_exact, K; lia|]. split; [apply sat_exact, K; [lia|rewrite Pe; lia]|].
  unfold gas_used. split; apply sat_exact, K; lia.
Qed.

Lemma settle_total ovf x b U : valid_tx x -> NoDup U ->
  In (x_caller x) U -> In (x_beneficiary x) U -> In (x_collector x) U ->
  total b U + x_gas_limit x * x_price x < 2 ^ 256 ->
  total (settle ovf x b) U = total b U + x_gas_limit x * x_price x.
Proof.
  intros V Hn H1 H2 H3 Hlt. destruct (amounts x V) as [Pe [Ra [A1 [A2 [A3 A4]]]]].
  destruct V as [Hs [Hl [Hsp [Hr [Hb Hp]]]]].
  unfold settle, reward_beneficiary, reimburse_caller.
  assert (Es : (x_caller x =? SYSTEM) = false) by (apply N.eqb_neq; auto). rewrite Es. cbv zeta.
  rewrite A1, A2, A3, A4.
  set (p := x_price x) in *. set (bf := x_basefee x) in *. set (u := gas_used x) in *.
  set (r := refund_amount x) in *. set (q := penalty_gas x) in *.
  assert (Sum : p * r + p * q + ((p - bf) * u + bf * u) = x_gas_limit x * p).
  { rewrite <- N.mul_add_distr_r. replace (p - bf + bf) with p by lia.
    rewrite <- !N.mul_add_distr_l. rewrite (N.mul_comm (x_gas_limit x)). f_equal.
    rewrite <- Ra. unfold charged_gas. rewrite <- Pe. fold q. unfold u, gas_used. lia. }
  unfold U256_LIM in *.
  set (b1 := if 0 <? r then credit ovf b (x_caller x) (p * r) else b).
  assert (T1 : total b1 U = total b U + p * r).
  { unfold b1. destruct (0 <? r) eqn:E.
    - apply credit_total; auto. unfold U256_LIM. lia.
    - apply N.ltb_ge in E. assert (r = 0) as -> by lia. lia. }
  set (b2 := if 0 <? q then credit ovf b1 (x_collector x) (p * q) else b1).
  assert (T2 : total b2 U = total b U + p * r + p * q).
  { unfold b2. destruct (0 <? q) eqn:E.
    - rewrite credit_total; auto; [lia|]. unfold U256_LIM. lia.
    - apply N.ltb_ge in E. assert (q = 0) as -> by lia. lia. }
  rewrite credit_total; auto; rewrite credit_total; auto; unfold U256_LIM; lia.
Qed.

Lemma deduct_total x b U : valid_tx x -> NoDup U -> In (x_caller x) U ->
  x_gas_limit x * x_price x <= b (x_caller x) ->
  total (deduct_caller x b) U + x_gas_limit x * x_price x = total b U.
Proof.
  intros V Hn Hi Hb. destruct V as [Hs _]. unfold deduct_caller.
  assert (Es : (x_caller x =? SYSTEM) = false) by (apply N.eqb_neq; auto). rewrite Es.
  pose proof (total_upd b (x_caller x) (b (x_caller x) - x_gas_limit x * x_price x) U Hn Hi) as T.
  assert (E : total (fun k => if k =? x_caller x then b k - x_gas_limit x * x_price x else b k) U =
              total (fun k => if k =? x_caller x then b (x_caller x) - x_gas_limit x * x_price x else b k) U).
  { clear. induction U as [|y U IH]; simpl; auto. rewrite IH.
    destruct (y =? x_caller x) eqn:E; auto. apply N.eqb_eq in E as ->. reflexivity. }
  lia.
Qed.
