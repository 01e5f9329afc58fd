(* Finite maps as association lists with generic keys (Rust HashMap seen through get / insert / remove,
   and through iteration in list order), and counting the entries that satisfy a test. Nothing here
   models project code. *)
From Verif Require Import Util.

Section AMap.
Context {K V : Type} (eqb : K -> K -> bool).

Fixpoint get (k : K) (m : list (K * V)) : option V :=
  match m with
  | [] => None
  | (k', v) :: t => if eqb k k' then Some v else get k t
  end.
Definition del (k : K) (m : list (K * V)) : list (K * V) := filter (fun e => negb (eqb k (fst e))) m.
Definition put (k : K) (v : V) (m : list (K * V)) : list (K * V) := (k, v) :: del k m.
Definition cnt (f : V -> bool) (m : list (K * V)) : nat := length (filter (fun e => f (snd e)) m).

Hypothesis eqb_eq : forall a b, eqb a b = true <-> a = b.

Lemma eqb_rf a : eqb a a = true.
Proof. apply eqb_eq; auto. Qed.
Lemma eqb_ne a b : a <> b -> eqb a b = false.
Proof. intros H. destruct (eqb a b) eqn:E; auto. apply eqb_eq in E; contradiction. Qed.
Lemma eqb_dec (a b : K) : {a = b} + {a <> b}.
Proof.
  destruct (eqb a b) eqn:E; [left; apply eqb_eq; auto|right].
  intros H; apply eqb_eq in H; congruence.
Qed.

Lemma get_del_same k m : get k (del k m) = None.
Proof.
  induction m as [|[a v] m IH]; cbn; auto. destruct (eqb k a) eqn:E; cbn; auto. rewrite E; auto.
Qed.
Lemma get_del_other k k' m : k <> k' -> get k' (del k m) = get k' m.
Proof.
  intros H. induction m as [|[a v] m IH]; cbn; auto.
  destruct (eqb k a) eqn:E; cbn.
  - apply eqb_eq in E; subst a. rewrite (eqb_ne k' k) by congruence. auto.
  - destruct (eqb k' a); auto.
Qed.
Lemma get_put_same k v m : get k (put k v m) = Some v.
Proof. cbn. rewrite eqb_rf; auto. Qed.
Lemma get_put_other k k' v m : k <> k' -> get k' (put k v m) = get k' m.
Proof. intros H. cbn. rewrite (eqb_ne k' k) by congruence. apply get_del_other; auto. Qed.

Lemma get_In k v m : get k m = Some v -> In (k, v) m.
Proof.
  induction m as [|[a w] m IH]; cbn; [congruence|].
  destruct (eqb k a) eqn:E; intros H.
  - apply eqb_eq in E. left; congruence.
  - right; auto.
Qed.
Lemma In_get k v m : NoDup (map fst m) -> In (k, v) m -> get k m = Some v.
Proof.
  induction m as [|[a w] m IH]; cbn; [tauto|]. intros Hd [H|H]; inversion Hd as [|? ? H1 H2]; subst.
  - inversion H; subst. rewrite eqb_rf; auto.
  - rewrite eqb_ne; auto. intros ->. apply H1. apply (in_map fst) in H; auto.
Qed.
Lemma get_None_notin k m : get k m = None <-> ~ In k (map fst m).
Proof.
  induction m as [|[a w] m IH]; cbn; [tauto|].
  destruct (eqb k a) eqn:E.
  - apply eqb_eq in E; subst. split; [congruence|]. intros H; exfalso; apply H; auto.
  - rewrite IH. split.
    + intros H [H'|H']; [subst; rewrite eqb_rf in E; congruence|auto].
    + intros H H'; apply H; auto.
Qed.
Lemma del_absent k m : get k m = None -> del k m = m.
Proof.
  induction m as [|[a w] m IH]; cbn; auto. destruct (eqb k a); [congruence|]. intros H; cbn; f_equal; apply IH; auto.
Qed.
Lemma del_del k m : del k (del k m) = del k m.
Proof. apply del_absent, get_del_same. Qed.
Lemma put_del k v m : put k v (del k m) = put k v m.
Proof. unfold put. rewrite del_del; auto. Qed.
Lemma in_del k e m : In e (del k m) <-> In e m /\ fst e <> k.
Proof.
  unfold del. rewrite filter_In, negb_true_iff. split; intros [H1 H2]; split; auto.
  - intros <-. rewrite eqb_rf in H2; congruence.
  - apply eqb_ne; congruence.
Qed.
Lemma NoDup_fst_filter f (m : list (K * V)) : NoDup (map fst m) -> NoDup (map fst (filter f m)).
Proof.
  induction m as [|e m IH]; cbn; auto. intros H; inversion H as [|? ? H1 H2]; subst.
  destruct (f e); cbn; auto. constructor; auto.
  intros Hin; apply H1. apply in_map_iff in Hin as [e' [He Hin]]. apply filter_In in Hin as [Hin _].
  rewrite <- He. apply in_map; auto.
Qed.
Lemma NoDup_del k m : NoDup (map fst m) -> NoDup (map fst (del k m)).
Proof. apply NoDup_fst_filter. Qed.
Lemma NoDup_put k v m : NoDup (map fst m) -> NoDup (map fst (put k v m)).
Proof.
  intros H. cbn. constructor.
  - apply get_None_notin, get_del_same.
  - apply NoDup_del; auto.
Qed.

Lemma cnt_del f k r m : NoDup (map fst m) -> get k m = Some r ->
  cnt f m = cnt f (del k m) + (if f r then 1 else 0).
Proof.
  induction m as [|[a w] m IH]; cbn; [congruence|]. intros Hd Hg; inversion Hd as [|? ? H1 H2]; subst.
  unfold cnt in *. destruct (eqb k a) eqn:E.
  - apply eqb_eq in E; subst a. inversion Hg; subst w.
    assert (HN : get k m = None) by (apply get_None_notin; auto).
    pose proof (del_absent k m HN) as HD. unfold del in HD |- *. cbn. try rewrite eqb_rf. cbn.
    rewrite HD. destruct (f r); cbn; lia.
  - unfold del in IH |- *. cbn. try rewrite E. cbn. specialize (IH H2 Hg). destruct (f w); cbn; lia.
Qed.
Lemma cnt_put_new f k r m : get k m = None -> cnt f (put k r m) = cnt f m + (if f r then 1 else 0).
Proof. intros H. unfold cnt, put. rewrite (del_absent _ _ H). cbn. destruct (f r); cbn; lia. Qed.
Lemma cnt_pos f k r m : get k m = Some r -> f r = true -> 1 <= cnt f m.
Proof.
  intros H Hf. apply get_In in H. unfold cnt.
  destruct (filter (fun e => f (snd e)) m) as [|e l] eqn:E; cbn; [|lia].
  exfalso. assert (Hin : In (k, r) []) by (rewrite <- E; apply filter_In; auto). destruct Hin.
Qed.
Lemma cnt_perm f m m' : Permutation m m' -> cnt f m = cnt f m'.
Proof.
  intros H. unfold cnt. induction H as [|e l l' H IH|a b l|l l' l'' H1 IH1 H2 IH2]; cbn; auto.
  - destruct (f (snd e)); cbn; lia.
  - destruct (f (snd a)), (f (snd b)); cbn; lia.
  - congruence.
Qed.
Lemma get_perm k m m' : NoDup (map fst m) -> Permutation m m' -> get k m = get k m'.
Proof.
  intros Hd Hp. assert (Hd' : NoDup (map fst m')) by (eapply Permutation_NoDup; [apply Permutation_map; eauto|auto]).
  destruct (get k m) as [v|] eqn:E.
  - symmetry. apply In_get; auto. eapply Permutation_in; eauto. apply get_In; auto.
  - symmetry. apply get_None_notin. apply get_None_notin in E. intros H; apply E.
    eapply Permutation_in; [apply Permutation_map, Permutation_sym; eauto|auto].
Qed.
End AMap.
