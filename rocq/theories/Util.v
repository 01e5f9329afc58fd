(* Generic lemmas used by every proof file: counting on duplicate-free lists, ordered association
   lists (Rust BTreeMap), sums. Nothing here models project code. *)
From Coq Require Export List Arith NArith ZArith Lia Bool Permutation Sorted.
From Coq Require Export ZifyBool ZifyNat ZifyN.
Export ListNotations.
Ltac Zify.zify_post_hook ::= Z.div_mod_to_equations.
#[export] Set Default Goal Selector "!".

(* ---------- counting ---------- *)
Definition memN (x : N) (l : list N) : bool := existsb (N.eqb x) l.

Lemma memN_In x l : memN x l = true <-> In x l.
Proof.
  unfold memN. rewrite existsb_exists. split.
  - intros [y [Hy He]]. apply N.eqb_eq in He. subst; auto.
  - intros H; exists x; split; auto. apply N.eqb_refl.
Qed.

Lemma memN_nIn x l : memN x l = false <-> ~ In x l.
Proof. rewrite <- memN_In. destruct (memN x l); split; congruence. Qed.

Definition interN (a b : list N) : list N := filter (fun x => memN x b) a.
Definition diffN (a b : list N) : list N := filter (fun x => negb (memN x b)) a.

Lemma interN_In x a b : In x (interN a b) <-> In x a /\ In x b.
Proof. unfold interN; rewrite filter_In, memN_In; tauto. Qed.
Lemma diffN_In x a b : In x (diffN a b) <-> In x a /\ ~ In x b.
Proof. unfold diffN; rewrite filter_In, negb_true_iff, memN_nIn; tauto. Qed.
Lemma inter_diff_len a b : length (interN a b) + length (diffN a b) = length a.
Proof.
  unfold interN, diffN; induction a as [|x a IH]; simpl; auto.
  destruct (memN x b); simpl; lia.
Qed.

Lemma NoDup_filter' {A} (f : A -> bool) l : NoDup l -> NoDup (filter f l).
Proof. apply NoDup_filter. Qed.

Lemma NoDup_app_intro {A} (l1 l2 : list A) :
  NoDup l1 -> NoDup l2 -> (forall x, In x l1 -> ~ In x l2) -> NoDup (l1 ++ l2).
Proof.
  induction l1 as [|x l1 IH]; simpl; intros H1 H2 Hd; auto.
  inversion H1; subst. constructor.
  - rewrite in_app_iff. intros [H|H]; [auto|]. eapply Hd; eauto.
  - apply IH; auto.
Qed.

Lemma NoDup_app_elim {A} (l1 l2 : list A) :
  NoDup (l1 ++ l2) -> NoDup l1 /\ NoDup l2 /\ (forall x, In x l1 -> ~ In x l2).
Proof.
  induction l1 as [|x l1 IH]; simpl; intros H.
  - repeat split; auto. constructor.
  - inversion H; subst. destruct (IH H3) as [A1 [A2 A3]]. repeat split; auto.
    + constructor; auto. intro; apply H2; apply in_app_iff; auto.
    + intros y [->|Hy]; [|auto]. intro; apply H2; apply in_app_iff; auto.
Qed.

(* |A| + |B| <= |C| + |A /\ B| for duplicate-free sublists of C *)
Lemma inter_lower a b c :
  NoDup a -> NoDup b -> incl a c -> incl b c ->
  length a + length b <= length c + length (interN a b).
Proof.
  intros Ha Hb Hac Hbc.
  assert (Hlen : length (diffN a b ++ b) <= length c).
  { apply NoDup_incl_length.
    - apply NoDup_app_intro; auto.
      + apply NoDup_filter; auto.
      + intros x Hx; apply diffN_In in Hx; tauto.
    - intros x Hx. apply in_app_iff in Hx as [Hx|Hx]; auto.
      apply diffN_In in Hx as [Hx _]; auto. }
  rewrite app_length in Hlen. pose proof (inter_diff_len a b). lia.
Qed.

(* a duplicate-free list longer than F has a member outside F *)
Lemma longer_has_other (a F : list N) :
  NoDup a -> length F < length a -> exists x, In x a /\ ~ In x F.
Proof.
  intros Ha HL.
  destruct (diffN a F) as [|x d] eqn:E.
  - exfalso. pose proof (inter_diff_len a F) as H. rewrite E in H. simpl in H.
    assert (length (interN a F) <= length F).
    { apply NoDup_incl_length; [apply NoDup_filter; auto|].
      intros y Hy. apply interN_In in Hy; tauto. }
    lia.
  - exists x. apply diffN_In. rewrite E; left; auto.
Qed.

(* ---------- sums ---------- *)
Definition sumN (l : list N) : N := fold_right N.add 0%N l.
Lemma sumN_app a b : sumN (a ++ b) = (sumN a + sumN b)%N.
Proof. induction a; simpl; auto. fold (sumN (a0 ++ b)). fold (sumN a0). rewrite IHa. lia. Qed.
Lemma sumN_perm a b : Permutation a b -> sumN a = sumN b.
Proof. induction 1; simpl; try lia. all: unfold sumN in *; simpl in *; lia. Qed.
Lemma sumN_const {A} (f : A -> N) c l :
  (forall x, In x l -> f x = c) -> sumN (map f l) = (c * N.of_nat (length l))%N.
Proof.
  induction l as [|x l IH]; intros H; cbn [map length].
  - cbn. lia.
  - change (sumN (f x :: map f l)) with (f x + sumN (map f l))%N.
    rewrite IH, H; [|left; auto|intros; apply H; right; auto]. lia.
Qed.

(* ---------- Rust BTreeMap<K, V> as an association list sorted by an N key ---------- *)
Section BMap.
Context {V : Type}.
Definition bmap := list (N * V).
Fixpoint bm_insert (k : N) (v : V) (m : bmap) : bmap :=
  match m with
  | [] => [(k, v)]
  | (k', v') :: m' =>
    if (k <? k')%N then (k, v) :: m
    else if (k =? k')%N then (k, v) :: m'
    else (k', v') :: bm_insert k v m'
  end.
Fixpoint bm_lookup (k : N) (m : bmap) : option V :=
  match m with
  | [] => None
  | (k', v') :: m' => if (k =? k')%N then Some v' else bm_lookup k m'
  end.
Definition bm_keys (m : bmap) : list N := map fst m.
Definition bm_of_list (l : list (N * V)) : bmap :=
  fold_left (fun m kv => bm_insert (fst kv) (snd kv) m) l [].
Definition bm_sorted (m : bmap) : Prop := StronglySorted N.lt (bm_keys m).

Lemma bm_insert_keys k v m x :
  In x (bm_keys (bm_insert k v m)) <-> x = k \/ In x (bm_keys m).
Proof.
  unfold bm_keys.
  induction m as [|[k' v'] m IH]; simpl; [intuition|].
  destruct (N.ltb_spec k k'); [simpl; intuition|].
  destruct (N.eqb_spec k k'); simpl; [subst; intuition|]. rewrite IH. intuition.
Qed.

Lemma bm_insert_sorted k v m : bm_sorted m -> bm_sorted (bm_insert k v m).
Proof.
  unfold bm_sorted. induction m as [|[k' v'] m IH]; simpl; intros H.
  - constructor; constructor.
  - inversion H as [|? ? Hs Hf]; subst. destruct (N.ltb_spec k k') as [Hlt|Hge].
    + simpl. constructor; auto. constructor; auto. eapply Forall_impl; [|exact Hf]. simpl; intros; lia.
    + destruct (N.eqb_spec k k'); simpl.
      * subst. constructor; auto.
      * constructor; auto. apply Forall_forall. intros x Hx.
        apply bm_insert_keys in Hx as [->|Hx]; [lia|].
        rewrite Forall_forall in Hf. apply Hf; auto.
Qed.

Lemma bm_lookup_insert k v m k' :
  bm_sorted m ->
  bm_lookup k' (bm_insert k v m) = if (k' =? k)%N then Some v else bm_lookup k' m.
Proof.
  unfold bm_sorted. induction m as [|[a b] m IH]; simpl; intros H.
  - destruct (N.eqb_spec k' k); auto.
  - inversion H as [|? ? Hs Hf]; subst. destruct (N.ltb_spec k a) as [Hlt|Hge]; simpl; auto.
    destruct (N.eqb_spec k a); simpl.
    + subst. destruct (N.eqb_spec k' a); auto.
    + rewrite IH; auto. destruct (N.eqb_spec k' a), (N.eqb_spec k' k); auto; subst; lia.
Qed.

Lemma bm_lookup_In k v m : bm_sorted m -> (bm_lookup k m = Some v <-> In (k, v) m).
Proof.
  unfold bm_sorted. induction m as [|[a b] m IH]; simpl; intros H; [split; intuition congruence|].
  inversion H as [|? ? Hs Hf]; subst. destruct (N.eqb_spec k a).
  - subst. split; [intros; left; congruence|]. intros [E|Hin]; [congruence|].
    rewrite Forall_forall in Hf. assert (a < a)%N by (apply Hf; apply (in_map fst) in Hin; auto). lia.
  - rewrite IH; auto. intuition congruence.
Qed.

Lemma bm_lookup_None k m : bm_lookup k m = None <-> ~ In k (bm_keys m).
Proof.
  unfold bm_keys. induction m as [|[a b] m IH]; simpl; [intuition|].
  destruct (N.eqb_spec k a); [subst; intuition congruence|]. rewrite IH. intuition.
Qed.

Lemma bm_of_list_sorted_from l m :
  bm_sorted m -> bm_sorted (fold_left (fun m kv => bm_insert (fst kv) (snd kv) m) l m).
Proof. revert m; induction l; simpl; intros; auto. apply IHl, bm_insert_sorted; auto. Qed.

Lemma bm_of_list_sorted l : bm_sorted (bm_of_list l).
Proof. apply bm_of_list_sorted_from. constructor. Qed.

Lemma bm_of_list_keys_from l m x :
  In x (bm_keys (fold_left (fun m kv => bm_insert (fst kv) (snd kv) m) l m)) <->
  In x (map fst l) \/ In x (bm_keys m).
Proof.
  revert m; induction l as [|[a b] l IH]; simpl; intros; [intuition|].
  rewrite IH, bm_insert_keys. intuition.
Qed.

Lemma bm_of_list_keys l x : In x (bm_keys (bm_of_list l)) <-> In x (map fst l).
Proof. unfold bm_of_list. rewrite bm_of_list_keys_from. simpl. intuition. Qed.
End BMap.
Arguments bmap : clear implicits.

Lemma ssorted_lt_NoDup l : StronglySorted N.lt l -> NoDup l.
Proof.
  induction 1 as [|x l Hs IH Hf]; constructor; auto.
  intro Hin. rewrite Forall_forall in Hf. specialize (Hf _ Hin). lia.
Qed.

Lemma bm_NoDup {V} (m : bmap V) : bm_sorted m -> NoDup (bm_keys m).
Proof. apply ssorted_lt_NoDup. Qed.

Lemma ssorted_ext l1 l2 :
  StronglySorted N.lt l1 -> StronglySorted N.lt l2 -> (forall x, In x l1 <-> In x l2) -> l1 = l2.
Proof.
  intros H1; revert l2; induction H1 as [|x l1 Hs1 IH Hf1]; intros l2 H2 Heq.
  - destruct l2 as [|y l2]; auto. exfalso. apply (Heq y). left; auto.
  - destruct H2 as [|y l2 Hs2 Hf2].
    + exfalso. apply (Heq x). left; auto.
    + rewrite Forall_forall in Hf1, Hf2.
      assert (x = y).
      { destruct (proj1 (Heq x) (or_introl eq_refl)) as [|Hx]; auto.
        destruct (proj2 (Heq y) (or_introl eq_refl)) as [|Hy]; auto.
        specialize (Hf1 _ Hy). specialize (Hf2 _ Hx). lia. }
      subst y. f_equal. apply IH; auto. intros z; split; intros Hz.
      * destruct (proj1 (Heq z) (or_intror Hz)) as [->|]; auto. specialize (Hf1 _ Hz). lia.
      * destruct (proj2 (Heq z) (or_intror Hz)) as [->|]; auto. specialize (Hf2 _ Hz). lia.
Qed.

Lemma StronglySorted_filter {A} (R : A -> A -> Prop) f l :
  StronglySorted R l -> StronglySorted R (filter f l).
Proof.
  induction 1 as [|x l Hs IH Hf]; simpl; [constructor|].
  destruct (f x); auto. constructor; auto.
  rewrite Forall_forall in *. intros y Hy. apply filter_In in Hy as [Hy _]. auto.
Qed.

Lemma StronglySorted_map {A B} (R : A -> A -> Prop) (S : B -> B -> Prop) (f : A -> B) l :
  (forall x y, R x y -> S (f x) (f y)) -> StronglySorted R l -> StronglySorted S (map f l).
Proof.
  intros HRS. induction 1 as [|x l Hs IH Hf]; simpl; constructor; auto.
  rewrite Forall_forall in *. intros y Hy. apply in_map_iff in Hy as [z [<- Hz]]. auto.
Qed.

Lemma NoDup_map_inj_on {A B} (f : A -> B) l :
  NoDup (map f l) -> forall x y, In x l -> In y l -> f x = f y -> x = y.
Proof.
  induction l as [|z l IH]; simpl; intros H x y Hx Hy E; [tauto|].
  inversion H; subst. destruct Hx as [->|Hx], Hy as [->|Hy]; auto.
  - exfalso; apply H2. rewrite E. apply in_map; auto.
  - exfalso; apply H2. rewrite <- E. apply in_map; auto.
Qed.

Lemma NoDup_map_intro {A B} (f : A -> B) l :
  NoDup l -> (forall x y, In x l -> In y l -> f x = f y -> x = y) -> NoDup (map f l).
Proof.
  induction 1 as [|x l Hn Hd IH]; simpl; intros Hinj; constructor.
  - intro Hin. apply in_map_iff in Hin as [y [E Hy]]. assert (y = x) by (apply Hinj; auto). subst; auto.
  - apply IH; intros; apply Hinj; auto.
Qed.

Lemma fold_left_ind {A B} (P : A -> Prop) (f : A -> B -> A) l a :
  P a -> (forall a b, In b l -> P a -> P (f a b)) -> P (fold_left f l a).
Proof.
  revert a; induction l as [|b l IH]; simpl; intros a Ha Hf; auto.
Qed.

(* BTreeMap collected from a list: if no entry was lost the keys were distinct *)
Lemma bm_insert_perm {V} k (v : V) m :
  ~ In k (bm_keys m) -> Permutation (bm_insert k v m) ((k, v) :: m).
Proof.
  unfold bm_keys. induction m as [|[a b] m IH]; simpl; intros H; auto.
  destruct (k <? a)%N; auto. destruct (N.eqb_spec k a); [subst; tauto|].
  rewrite IH by tauto. apply perm_swap.
Qed.

Lemma bm_insert_length_le {V} k (v : V) m : length (bm_insert k v m) <= S (length m).
Proof.
  induction m as [|[a b] m IH]; simpl; auto.
  destruct (k <? a)%N; simpl; auto. destruct (k =? a)%N; simpl; lia.
Qed.

Lemma bm_insert_length_in {V} k (v : V) m :
  bm_sorted m -> In k (bm_keys m) -> length (bm_insert k v m) = length m.
Proof.
  unfold bm_sorted, bm_keys. induction m as [|[a b] m IH]; simpl; intros Hs H; [tauto|].
  inversion Hs as [|? ? Hs' Hf]; subst.
  destruct (N.ltb_spec k a).
  - exfalso. destruct H as [H|H]; [lia|]. rewrite Forall_forall in Hf. specialize (Hf _ H). lia.
  - destruct (N.eqb_spec k a); simpl; auto. rewrite IH; auto. destruct H; [congruence|auto].
Qed.

Lemma bm_from_length_le {V} (l : list (N * V)) m :
  length (fold_left (fun m kv => bm_insert (fst kv) (snd kv) m) l m) <= length l + length m.
Proof.
  revert m; induction l as [|x l IH]; simpl; intros m; auto.
  etransitivity; [apply IH|]. pose proof (bm_insert_length_le (fst x) (snd x) m). lia.
Qed.

Lemma bm_from_full {V} (l : list (N * V)) m :
  bm_sorted m ->
  length (fold_left (fun m kv => bm_insert (fst kv) (snd kv) m) l m) = length l + length m ->
  NoDup (map fst l) /\ (forall k, In k (map fst l) -> ~ In k (bm_keys m)) /\
  Permutation (fold_left (fun m kv => bm_insert (fst kv) (snd kv) m) l m) (l ++ m).
Proof.
  revert m; induction l as [|[k v] l IH]; intros m Hs HL.
  - cbn. repeat split; auto. constructor.
  - cbn [fold_left length fst snd map] in *.
    pose proof (bm_from_length_le l (bm_insert k v m)) as Hle.
    pose proof (bm_insert_length_le k v m) as Hle2.
    assert (Hn : ~ In k (bm_keys m)).
    { intro Hin. pose proof (bm_insert_length_in k v m Hs Hin). lia. }
    destruct (IH (bm_insert k v m)) as [H1 [H2 H3]]; [apply bm_insert_sorted; auto|lia|].
    repeat split.
    + constructor; auto. intro Hin. apply (H2 _ Hin). apply bm_insert_keys; auto.
    + intros k' [<-|Hk']; auto. intro Hin. apply (H2 _ Hk'). apply bm_insert_keys; auto.
    + rewrite H3. rewrite bm_insert_perm; auto. rewrite <- Permutation_middle. reflexivity.
Qed.

Lemma bm_of_list_full {V} (l : list (N * V)) :
  length (bm_of_list l) = length l -> NoDup (map fst l) /\ Permutation (bm_of_list l) l.
Proof.
  intros H. destruct (bm_from_full l []) as [H1 [_ H3]].
  - constructor.
  - rewrite <- plus_n_O. exact H.
  - rewrite app_nil_r in H3. auto.
Qed.

Lemma nth_error_ext {A} (l1 l2 : list A) : (forall i, nth_error l1 i = nth_error l2 i) -> l1 = l2.
Proof.
  revert l2; induction l1 as [|x l1 IH]; intros [|y l2] H; [reflexivity| | |].
  - specialize (H 0). discriminate.
  - specialize (H 0). discriminate.
  - pose proof (H 0) as H0. simpl in H0. injection H0 as ->. f_equal. apply IH. intros i. apply (H (S i)).
Qed.

Lemma filter_len_le {A} (f : A -> bool) l : length (filter f l) <= length l.
Proof. induction l as [|x l IH]; simpl; [lia|]. destruct (f x); simpl; lia. Qed.
