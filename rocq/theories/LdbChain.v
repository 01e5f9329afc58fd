(* All values a key has, had since the last commit, or will have once the queue is processed. *)
From Verif Require Import Util LdbModel LdbProofs.
Local Open Scope N_scope.

Inductive subl {A} : list A -> list A -> Prop :=
| subl_nil : subl [] []
| subl_skip x a b : subl a b -> subl a (x :: b)
| subl_take x a b : subl a b -> subl (x :: a) (x :: b).
Lemma subl_refl {A} (l : list A) : subl l l.
Proof. induction l; constructor; assumption. Qed.
Lemma subl_nil_l {A} (l : list A) : subl [] l.
Proof. induction l; constructor; assumption. Qed.
Lemma subl_app {A} (a b c d : list A) : subl a b -> subl c d -> subl (a ++ c) (b ++ d).
Proof. induction 1; cbn; intros; [assumption|apply subl_skip|apply subl_take]; auto. Qed.
Lemma subl_In {A} (a b : list A) x : subl a b -> In x a -> In x b.
Proof. induction 1; cbn; intros; tauto. Qed.
Lemma subl_Forall {A} (P : A -> Prop) a b : subl a b -> Forall P b -> Forall P a.
Proof. intros H Hb. rewrite Forall_forall in *. intros x Hx. apply Hb. eapply subl_In; eassumption. Qed.
Lemma subl_FOP {A} (R : A -> A -> Prop) a b : subl a b -> ForallOrdPairs R b -> ForallOrdPairs R a.
Proof.
  induction 1 as [|x a b H IH|x a b H IH]; intros Hb; [constructor| |].
  - inversion Hb; subst. auto.
  - inversion Hb; subst. constructor; [eapply subl_Forall; eassumption|auto].
Qed.
Lemma subl_last {A} (x : A) l r : subl (last (x :: l) x :: r) (x :: l ++ r).
Proof.
  revert x. induction l as [|y l IH]; intros x.
  - cbn. apply subl_refl.
  - change (last (x :: y :: l) x) with (last (y :: l) x).
    replace (last (y :: l) x) with (last (y :: l) y).
    + apply subl_skip. cbn. apply IH.
    + clear. revert y. induction l as [|z l IH]; intros y; [reflexivity|].
      change (last (z :: l) y = last (z :: l) x). clear IH. revert z. induction l as [|w l IH]; intros z; [reflexivity|].
      apply (IH w).
Qed.

Section Chain.
Context {V : Type}.
Notation ldb := (ldb V).
Definition eff (k : key) (ops : list (op V)) : list (option V) :=
  flat_map (fun o => match effect k o with Some w => [w] | None => [] end) ops.
Definition chain (k : key) (d : ldb) : list (option V) := l_disk d k :: eff k (staged d ++ ops_of (l_queue d)).

Lemma eff_app k a b : eff k (a ++ b) = eff k a ++ eff k b.
Proof. apply flat_map_app. Qed.
Lemma last_default {A} (l : list A) x d1 d2 : last (x :: l) d1 = last (x :: l) d2.
Proof. revert x; induction l as [|y l IH]; intros x; [reflexivity|]. apply (IH y). Qed.
Lemma apply_all_last k ops : forall f : table V, apply_all ops f k = last (f k :: eff k ops) (f k).
Proof.
  induction ops as [|o ops IH]; intros f; [reflexivity|].
  change (apply_all (o :: ops) f k) with (apply_all ops (apply_op f o) k). rewrite IH, apply_effect.
  unfold eff at 2. cbn [flat_map]. fold (eff k ops). destruct (effect k o) as [w|]; [|reflexivity].
  cbn [app]. change (last (f k :: w :: eff k ops) (f k)) with (last (w :: eff k ops) (f k)). apply last_default.
Qed.

Lemma settled_chain k P (d : ldb) : settled k P d <-> P (l_mem d k) /\ Forall P (chain k d).
Proof.
  unfold settled, chain.
  assert (E : forall ops, Forall (op_ok k P) ops <-> Forall P (eff k ops)).
  { induction ops as [|o ops IH]; [split; constructor|]. unfold eff. cbn [flat_map]. fold (eff k ops).
    rewrite Forall_app, <- IH, Forall_cons_iff. unfold op_ok at 1.
    destruct (effect k o); cbn; rewrite ?Forall_cons_iff; intuition. }
  rewrite Forall_cons_iff, eff_app, Forall_app, <- !E. tauto.
Qed.

Lemma chain_do k o (d : ldb) : chain k (l_do o d) = chain k d ++ eff k [o].
Proof.
  unfold chain, l_do, staged. cbn [l_disk l_txn l_queue].
  rewrite ops_of_app, !eff_app. change (ops_of [MOp o]) with [o]. cbn [app]. rewrite app_assoc. reflexivity.
Qed.
Lemma chain_send k m (d : ldb) : ops_of [m] = [] -> chain k (l_send m d) = chain k d.
Proof.
  intros H. unfold chain, l_send, staged. cbn [l_disk l_txn l_queue].
  rewrite ops_of_app, H, app_nil_r. reflexivity.
Qed.
Lemma chain_crash k (d : ldb) : subl (chain k (l_crash d)) (chain k d).
Proof. unfold chain, l_crash, l_open, staged. cbn. apply subl_take, subl_nil_l. Qed.

Lemma chain_run k ok (d : ldb) : subl (chain k (l_run ok d)) (chain k d).
Proof.
  unfold l_run. destruct (l_queue d) as [|m q] eqn:Hq; [apply subl_refl|].
  assert (Same : forall dd : ldb, l_disk dd = l_disk d -> staged dd = staged d -> l_queue dd = q ->
            subl (chain k dd) (chain k d)).
  { intros dd H1 H2 H3. unfold chain. rewrite H1, H2, H3, Hq. apply subl_take.
    rewrite !eff_app. apply subl_app; [apply subl_refl|]. rewrite ops_of_cons, eff_app.
    apply (subl_app [] _ _ _ (subl_nil_l _) (subl_refl _)). }
  assert (Drop : forall dd : ldb, l_disk dd = l_disk d -> staged dd = [] -> l_queue dd = q ->
            subl (chain k dd) (chain k d)).
  { intros dd H1 H2 H3. unfold chain. rewrite H1, H2, H3, Hq. apply subl_take.
    rewrite !eff_app. apply (subl_app [] _ _ _ (subl_nil_l _)). rewrite ops_of_cons, eff_app.
    apply (subl_app [] _ _ _ (subl_nil_l _) (subl_refl _)). }
  assert (Comm : forall dd : ldb, l_disk dd = apply_all (staged d) (l_disk d) -> staged dd = [] -> l_queue dd = q ->
            subl (chain k dd) (chain k d)).
  { intros dd H1 H2 H3. unfold chain. rewrite H1, H2, H3, Hq, apply_all_last, ops_of_cons.
    change (eff k ([] ++ ops_of q)) with (eff k (ops_of q)). rewrite !eff_app.
    assert (Z : forall (a b c : list (option V)) x, subl (last (x :: a) x :: c) (x :: a ++ b ++ c)).
    { intros a b c x. rewrite app_assoc. 
      assert (subl (last (x :: a) x :: c) (x :: a ++ c)) by apply subl_last.
      assert (T : forall u v w : list (option V), subl u v -> subl v w -> subl u w).
      { intros u v w H4 H5. revert u H4. induction H5 as [|y s t H5 IH|y s t H5 IH]; intros u H4; [assumption| |].
        - constructor; auto.
        - inversion H4; subst; [apply subl_skip; auto|apply subl_take; auto]. }
      eapply T; [eassumption|]. apply subl_take. apply subl_app; [|apply subl_refl].
      rewrite <- (app_nil_r a) at 1. apply subl_app; [apply subl_refl|apply subl_nil_l]. }
    apply Z. }
  destruct m; cbn [run_msg].
  - destruct (l_txn d) as [[ops n]|] eqn:Et.
    + unfold set_queue; cbn [l_txn]; rewrite Et. unfold chain, staged. cbn [l_disk l_txn l_queue]. rewrite Et, Hq.
      apply subl_take. rewrite ops_of_cons. change (ops_of [MOp o]) with [o]. destruct ok.
      * rewrite !eff_app. rewrite app_assoc. apply subl_refl.
      * rewrite !eff_app. apply subl_app; [apply subl_refl|]. apply (subl_app [] _ _ _ (subl_nil_l _) (subl_refl _)).
    + unfold set_queue; cbn [l_txn]; rewrite Et. unfold chain, staged. cbn [l_disk l_txn l_queue]. rewrite Et, Hq.
      rewrite ops_of_cons. change (ops_of [MOp o]) with [o].
      change (eff k ([] ++ [o] ++ ops_of q)) with (eff k ([o] ++ ops_of q)).
      change (eff k ([] ++ ops_of q)) with (eff k (ops_of q)). destruct ok.
      * rewrite apply_effect. rewrite (eff_app k [o]). unfold eff at 2. cbn [flat_map]. rewrite app_nil_r.
        destruct (effect k o); cbn [app]; [apply subl_skip|]; apply subl_refl.
      * apply subl_take. rewrite (eff_app k [o]). apply (subl_app [] _ _ _ (subl_nil_l _) (subl_refl _)).
  - destruct (l_txn d) as [[ops n]|] eqn:Et; unfold set_queue; cbn [l_txn]; rewrite Et.
    + apply Same; try reflexivity. unfold staged. rewrite Et. reflexivity.
    + destruct ok; apply Same; try reflexivity; unfold staged; rewrite Et; reflexivity.
  - unfold end_txn. destruct (l_txn d) as [[ops n]|] eqn:Et; unfold set_queue; cbn [l_txn]; rewrite Et.
    + destruct (n <=? 1); [destruct ok|].
      * apply Comm; try reflexivity. cbn. unfold staged. rewrite Et. reflexivity.
      * apply Drop; reflexivity.
      * apply Same; try reflexivity. unfold staged. rewrite Et. reflexivity.
    + apply Same; try reflexivity. unfold staged. cbn. rewrite Et. reflexivity.
  - unfold end_txn. destruct (l_txn d) as [[ops n]|] eqn:Et; unfold set_queue; cbn [l_txn]; rewrite Et.
    + destruct (n <=? 1); [destruct ok|].
      * apply Comm; try reflexivity. cbn. unfold staged. rewrite Et. reflexivity.
      * apply Drop; reflexivity.
      * apply Same; try reflexivity. unfold staged. rewrite Et. reflexivity.
    + apply Same; try reflexivity. unfold staged. cbn. rewrite Et. reflexivity.
  - destruct (l_txn d) as [[ops n]|] eqn:Et; unfold set_queue; cbn [l_txn]; rewrite Et;
      apply Same; try reflexivity; unfold staged; rewrite Et; reflexivity.
  - apply Same; reflexivity.
Qed.

Lemma coherent_last k (d : ldb) : coherent d -> l_failed d = false -> l_mem d k = last (chain k d) (l_disk d k).
Proof.
  intros H F. rewrite (H F k), <- apply_all_app, apply_all_last. reflexivity.
Qed.
Lemma waiting_mono k (P Q : option V -> Prop) b (d : ldb) : (forall v, P v -> Q v) -> waiting k P b d -> waiting k Q b d.
Proof.
  intros H [H0 H1]. assert (HF : forall l, Forall (op_ok k P) l -> Forall (op_ok k Q) l).
  { intros l. apply Forall_impl. intros o. unfold op_ok. destruct (effect k o); auto. }
  split; [auto|]. destruct H1 as [(q1 & q2 & E & A & B)|[(Hb & Ht & A & B)|[H1|[H1 H2]]]].
  - left. exists q1, q2. split; [exact E|]. split; [apply HF; exact A|]. intros F. apply H, B, F.
  - right. left. split; [exact Hb|]. split; [exact Ht|]. split; [apply HF; exact A|]. intros F. apply H, B, F.
  - right. right. left. exact H1.
  - right. right. right. split; [exact H1|]. destruct H2 as (S1 & S2 & S3 & S4). repeat split; auto.
Qed.
End Chain.
