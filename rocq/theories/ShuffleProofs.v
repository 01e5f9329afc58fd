From Verif Require Import Util ShuffleModel.

Definition rng_ok (g : rng) : Prop := forall p b, 0 < b -> g p b < b.

Section L.
Context {A : Type}.
Implicit Types l : list A.

Lemma upd_len l : forall i x, length (upd l i x) = length l.
Proof. induction l as [|y l IH]; intros [|i] x; simpl; auto. Qed.
Lemma upd_nth l : forall i x, i < length l -> nth_error (upd l i x) i = Some x.
Proof. induction l as [|y l IH]; intros [|i] x; simpl; intros H; try lia; auto. apply IH. lia. Qed.
Lemma upd_nth_other l : forall i j x, i <> j -> nth_error (upd l i x) j = nth_error l j.
Proof. induction l as [|y l IH]; intros [|i] [|j] x; simpl; intros H; try congruence; auto. Qed.
Lemma upd_perm l : forall i a b, nth_error l i = Some a -> Permutation (b :: l) (a :: upd l i b).
Proof.
  induction l as [|y l IH]; intros [|i] a b; cbn [nth_error upd]; try discriminate.
  - intros H; injection H as ->. apply perm_swap.
  - intros H. rewrite perm_swap. rewrite (IH _ _ _ H). apply perm_swap.
Qed.
Lemma upd_none l : forall k x, nth_error l k = None -> upd l k x = l.
Proof. induction l as [|y l IH]; intros [|k] x H; cbn [upd nth_error] in *; auto; try discriminate. f_equal. auto. Qed.
Lemma swap_perm l i j : Permutation (swap l i j) l.
Proof.
  unfold swap. destruct (nth_error l i) as [a|] eqn:Ei; [|auto]. destruct (nth_error l j) as [b|] eqn:Ej; [|auto].
  pose proof (upd_perm l i a b Ei) as H1.
  assert (Hj : nth_error (upd l i b) j = Some b).
  { destruct (Nat.eq_dec i j) as [->|Hne]; [apply upd_nth; apply nth_error_Some; congruence|]. rewrite upd_nth_other; auto. }
  pose proof (upd_perm (upd l i b) j b a Hj) as H2.
  rewrite H2 in H1. apply Permutation_cons_inv in H1. apply Permutation_sym. auto.
Qed.
Lemma swap_len l i j : length (swap l i j) = length l.
Proof. apply Permutation_length, swap_perm. Qed.
Lemma swap_i l i j : i < length l -> j < length l -> nth_error (swap l i j) i = nth_error l j.
Proof.
  intros Hi Hj. unfold swap. destruct (nth_error l i) as [a|] eqn:Ei; [|apply nth_error_None in Ei; lia].
  destruct (nth_error l j) as [b|] eqn:Ej; [|apply nth_error_None in Ej; lia].
  destruct (Nat.eq_dec i j) as [->|Hne].
  - rewrite upd_nth by (rewrite upd_len; auto). congruence.
  - rewrite upd_nth_other by auto. apply upd_nth. auto.
Qed.
Lemma swap_other l i j k : k <> i -> k <> j -> nth_error (swap l i j) k = nth_error l k.
Proof.
  intros H1 H2. unfold swap. destruct (nth_error l i); [|auto]. destruct (nth_error l j); [|auto]. rewrite !upd_nth_other; auto.
Qed.

Lemma fy_perm g : forall i p l, Permutation (fisher_yates g p i l) l.
Proof. induction i as [|i IH]; intros p l; cbn [fisher_yates]; [auto|]. rewrite IH. apply swap_perm. Qed.

(* the reservoir holds distinct positions of what was seen *)
Lemma reservoir_sub g amount : forall (rest : list A) p i (res : list A), length res = amount ->
  exists other, Permutation (snd (reservoir g p i amount res rest) ++ other) (res ++ rest) /\ length (snd (reservoir g p i amount res rest)) = amount.
Proof.
  induction rest as [|x rest IH]; intros p i res Hl; cbn [reservoir].
  - exists []. rewrite !app_nil_r. auto.
  - set (k := g p (i + 1 + amount)). destruct (IH (S p) (S i) (upd res k x)) as (o & P & L); [rewrite upd_len; auto|].
    destruct (nth_error res k) as [a|] eqn:Ek.
    + exists (a :: o). split; auto. rewrite <- Permutation_middle, P.
      pose proof (upd_perm res k a x Ek) as H. rewrite app_comm_cons, <- H. cbn [app].
      apply Permutation_middle.
    + assert (Hu : upd res k x = res) by (apply upd_none; auto).
      rewrite Hu in *. exists (x :: o). split; auto. rewrite <- Permutation_middle, P. apply Permutation_middle.
Qed.
Lemma choose_sub g p l n : exists other, Permutation (snd (choose_multiple g p l n) ++ other) l /\ length (snd (choose_multiple g p l n)) = Nat.min n (length l).
Proof.
  unfold choose_multiple. destruct (length l <? n) eqn:El.
  - apply Nat.ltb_lt in El. exists []. rewrite app_nil_r. cbn [snd]. split; [auto|lia].
  - apply Nat.ltb_ge in El. destruct (reservoir_sub g n (skipn n l) p 0 (firstn n l)) as (o & P & L); [apply firstn_length_le; auto|].
    exists o. rewrite firstn_skipn in P. split; [auto|lia].
Qed.

(* ---------- draws and permutations correspond one to one ---------- *)
(* the shuffle with its draws written out: the first is for position i *)
Fixpoint fy_list (i : nat) (ds : list nat) l : list A :=
  match i, ds with S i', d :: ds' => fy_list i' ds' (swap l i d) | _, _ => l end.
(* draw k is at most the position it is for *)
Fixpoint draws_ok (i : nat) (ds : list nat) : Prop :=
  match i, ds with 0, [] => True | S i', d :: ds' => d <= i /\ draws_ok i' ds' | _, _ => False end.
Fixpoint draws_of (g : rng) (p i : nat) : list nat := match i with 0 => [] | S i' => g p (S i) :: draws_of g (S p) i' end.
Lemma fy_draws g : forall i p l, fisher_yates g p i l = fy_list i (draws_of g p i) l.
Proof. induction i as [|i IH]; intros p l; cbn [fisher_yates draws_of fy_list]; auto. Qed.
Lemma draws_of_ok g : rng_ok g -> forall i p, draws_ok i (draws_of g p i).
Proof. intros H. induction i as [|i IH]; intros p; cbn [draws_of draws_ok]; auto. split; auto. specialize (H p (S (S i))). lia. Qed.

Lemma fy_list_perm : forall i ds l, Permutation (fy_list i ds l) l.
Proof. induction i as [|i IH]; intros [|d ds] l; cbn [fy_list]; auto. rewrite IH. apply swap_perm. Qed.
Lemma fy_list_above : forall i ds l k, draws_ok i ds -> i < k -> nth_error (fy_list i ds l) k = nth_error l k.
Proof.
  induction i as [|i IH]; intros [|d ds] l k; cbn [fy_list draws_ok]; try tauto. intros [H1 H2] Hk. rewrite IH; auto; [|lia]. apply swap_other; lia.
Qed.

Lemma NoDup_nth_inj l i j x : NoDup l -> nth_error l i = Some x -> nth_error l j = Some x -> i = j.
Proof.
  intros Hn Hi Hj. apply (proj1 (NoDup_nth_error l) Hn); [apply nth_error_Some; congruence|congruence].
Qed.

Lemma fy_list_inj : forall i ds ds' l, NoDup l -> i < length l -> draws_ok i ds -> draws_ok i ds' ->
  fy_list i ds l = fy_list i ds' l -> ds = ds'.
Proof.
  induction i as [|i IH]; intros [|d ds] [|d' ds'] l Hn Hi; cbn [fy_list draws_ok]; try tauto.
  intros [H1 H2] [H1' H2'] He.
  assert (Hd : d = d').
  { assert (Ha : nth_error (fy_list i ds (swap l (S i) d)) (S i) = nth_error l d).
    { rewrite fy_list_above by (auto; lia). apply swap_i; lia. }
    assert (Hb : nth_error (fy_list i ds' (swap l (S i) d')) (S i) = nth_error l d').
    { rewrite fy_list_above by (auto; lia). apply swap_i; lia. }
    rewrite He in Ha. rewrite Ha in Hb. destruct (nth_error l d) as [x|] eqn:Ex; [|apply nth_error_None in Ex; lia].
    eapply NoDup_nth_inj; eauto. }
  subst d'. f_equal. apply (IH ds ds' (swap l (S i) d)); auto.
  - eapply Permutation_NoDup; [apply Permutation_sym, swap_perm|auto].
  - rewrite swap_len. lia.
Qed.

Lemma list_eq_nth l l' : (forall k, nth_error l k = nth_error l' k) -> l = l'.
Proof.
  revert l'. induction l as [|x l IH]; intros [|y l'] H; auto; try (specialize (H 0); discriminate).
  pose proof (H 0) as H0. cbn in H0. injection H0 as ->. f_equal. apply IH. intros k. apply (H (S k)).
Qed.
Lemma fy_list_surj : forall i q l, NoDup l -> i < length l -> Permutation q l ->
  (forall k, i < k -> nth_error q k = nth_error l k) -> exists ds, draws_ok i ds /\ fy_list i ds l = q.
Proof.
  induction i as [|i IH]; intros q l Hn Hi Hp Hk.
  - exists []. cbn [draws_ok fy_list]. split; auto. apply list_eq_nth. intros [|k]; [|symmetry; apply Hk; lia].
    assert (Hnq : NoDup q) by (eapply Permutation_NoDup; [apply Permutation_sym|]; eauto).
    destruct (nth_error q 0) as [x|] eqn:Eq.
    + assert (Hin : In x l) by (apply (Permutation_in _ Hp); eapply nth_error_In; eauto).
      apply In_nth_error in Hin as [[|k] Hx]; [auto|]. rewrite <- Hk in Hx by lia.
      pose proof (NoDup_nth_inj q 0 (S k) x Hnq Eq Hx). lia.
    + apply nth_error_None in Eq. pose proof (Permutation_length Hp). apply nth_error_None. lia.
  - assert (Hnq : NoDup q) by (eapply Permutation_NoDup; [apply Permutation_sym|]; eauto).
    pose proof (Permutation_length Hp) as Hlen.
    destruct (nth_error q (S i)) as [x|] eqn:Eq; [|apply nth_error_None in Eq; lia].
    assert (Hin : In x l) by (apply (Permutation_in _ Hp); eapply nth_error_In; eauto).
    apply In_nth_error in Hin as [d Hd].
    assert (Hdl : d < length l) by (apply nth_error_Some; congruence).
    assert (Hle : d <= S i). { destruct (Nat.le_gt_cases d (S i)) as [|Hgt]; auto. rewrite <- Hk in Hd by lia. pose proof (NoDup_nth_inj q _ _ x Hnq Hd Eq). lia. }
    destruct (IH q (swap l (S i) d)) as (ds & D1 & D2).
    + eapply Permutation_NoDup; [apply Permutation_sym, swap_perm|auto].
    + rewrite swap_len. lia.
    + rewrite swap_perm. auto.
    + intros k Hki. destruct (Nat.eq_dec k (S i)) as [->|Hne]; [rewrite swap_i by lia; congruence|].
      rewrite swap_other by lia. apply Hk. lia.
    + exists (d :: ds). cbn [draws_ok fy_list]. auto.
Qed.
End L.

(* ---------- sorting ---------- *)
Lemma ins_addr_perm x l : Permutation (ins_addr x l) (x :: l).
Proof. induction l as [|y l IH]; cbn [ins_addr]; auto. destruct (N.leb x y); auto. rewrite IH. apply perm_swap. Qed.
Lemma sort_addr_perm l : Permutation (sort_addr l) l.
Proof. unfold sort_addr. induction l as [|x l IH]; cbn [fold_right]; auto. rewrite ins_addr_perm. auto. Qed.
Lemma ins_addr_sorted x l : StronglySorted N.le l -> StronglySorted N.le (ins_addr x l).
Proof.
  induction l as [|y l IH]; intros H; cbn [ins_addr]; [constructor; constructor|].
  inversion H as [|? ? H1 H2]; subst. destruct (N.leb x y) eqn:E.
  - apply N.leb_le in E. constructor; auto. constructor; auto. rewrite Forall_forall in *. intros z Hz. specialize (H2 z Hz). lia.
  - apply N.leb_gt in E. constructor; auto. rewrite Forall_forall in *. intros z Hz.
    apply (Permutation_in _ (ins_addr_perm x l)) in Hz. destruct Hz as [<-|Hz]; [lia|auto].
Qed.
Lemma sort_addr_sorted l : StronglySorted N.le (sort_addr l).
Proof. unfold sort_addr. induction l as [|x l IH]; cbn [fold_right]; [constructor|]. apply ins_addr_sorted; auto. Qed.
Lemma sorted_strict l : NoDup l -> StronglySorted N.le l -> StronglySorted N.lt l.
Proof.
  induction l as [|x l IH]; intros Hn Hs; [constructor|]. inversion Hn as [|? ? N1 N2]; inversion Hs as [|? ? S1 S2]; subst.
  constructor; auto. rewrite Forall_forall in *. intros z Hz. specialize (S2 z Hz). assert (x <> z) by (intros ->; auto). lia.
Qed.
Lemma sorted_perm_unique l : forall l', StronglySorted N.lt l -> StronglySorted N.lt l' -> (forall x, In x l <-> In x l') -> l = l'.
Proof.
  induction l as [|x l IH]; intros [|y l'] H H' He.
  - auto.
  - exfalso. apply (He y). simpl; auto.
  - exfalso. apply (He x). simpl; auto.
  - inversion H as [|? ? S1 S2]; inversion H' as [|? ? T1 T2]; subst. rewrite Forall_forall in *.
    assert (Hxy : x = y).
    { destruct (proj1 (He x) (or_introl eq_refl)) as [->|Hx]; auto. destruct (proj2 (He y) (or_introl eq_refl)) as [->|Hy]; auto.
      specialize (S2 y Hy). specialize (T2 x Hx). lia. }
    subst y. f_equal. apply IH; auto. intros z. split; intros Hz.
    + destruct (proj1 (He z) (or_intror Hz)) as [->|]; auto. specialize (S2 z Hz). lia.
    + destruct (proj2 (He z) (or_intror Hz)) as [->|]; auto. specialize (T2 z Hz). lia.
Qed.
