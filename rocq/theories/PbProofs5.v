From Verif Require Import Util PbModel PbSpec PbProofs1 PbProofs2 PbProofs4.
Local Open Scope N_scope.

(** only headers of the epoch are sent, when parents never come as an empty list *)
Definition nonempty_parents (e : bev) : Prop := match e with BParents cs _ => cs <> [] | _ => True end.
Definition store_ok (c : bcfg) (s : bst) : Prop := forall h, b_store s = Some h -> bh_epoch h = c_epoch c.
Definition ep (c : bcfg) (s : bst) : Prop :=
  (forall h, In h (b_sent s) -> bh_epoch h = c_epoch c) /\
  (forall h b, b_pend s = Some (h, b) -> bh_epoch h = c_epoch c) /\
  (b_dead s = false -> store_ok c s \/ (b_pend s = None /\ b_parents s <> []) \/ (exists h, b_pend s = Some (h, false))).
Lemma pre_alive c s e : b_dead s = false -> e <> BFail -> b_dead (pre c s e) = false.
Proof.
  intros D NF. destruct e as [x w|cs q|cr rs| | | | | |v|f]; cbn [pre]; try exact D.
  - destruct (parents_shape c cs q s) as (r & pr & ps & l & a & -> & _). exact D.
  - destruct (committed_shape rs s) as (ds & t & dn & ->). exact D.
  - unfold write_record. destruct (b_pend s) as [[h [|]]|]; exact D.
  - unfold task_done. destruct (b_pend s) as [[h [|]]|]; exact D.
  - contradiction NF; reflexivity.
Qed.
Lemma fail_step c s : b_dead s = false -> bstep c s BFail = pre c s BFail.
Proof. intros D. unfold bstep. rewrite D. reflexivity. Qed.
Lemma ep_step c s e : nonempty_parents e -> ep c s -> ep c (bstep c s e).
Proof.
  intros NE A. destruct (b_dead s) eqn:D; [rewrite step_dead by exact D; exact A|].
  assert (A' : ep c (pre c s e) ).
  { destruct A as (A1 & A2 & A3). specialize (A3 D).
    destruct e as [x w|cs q|cr rs| | | | | |v|f]; cbn [pre]; try (split; [exact A1|split; [exact A2|intros _; exact A3]]).
    - destruct (parents_shape c cs q s) as (r & pr & ps & l & a & -> & L & Sh). cbn in NE.
      split; [exact A1|]. split; [exact A2|]. intros _. destruct A3 as [X|[[X Y]|X]]; [left; exact X| |right; right; exact X].
      right; left. split; [exact X|]. cbn [b_parents set_adv set_parents].
      destruct Sh as [(_ & _ & [->|(_ & ->)])|(_ & _ & -> & _)]; [exact Y| |exact NE].
      intros Z. apply app_eq_nil in Z as [Z _]. contradiction.
    - destruct (committed_shape rs s) as (ds & t & dn & ->). split; [exact A1|split; [exact A2|intros _; exact A3]].
    - unfold write_record. destruct (b_pend s) as [[h [|]]|] eqn:P;
        try (split; [exact A1|split; [rewrite P; exact A2|rewrite P; intros _; exact A3]]).
      split; [exact A1|]. split; [intros g b X; cbn in X; injection X as <- _; exact (A2 h false eq_refl)|].
      intros _. left. unfold store_ok. cbn [b_store]. pose proof (A2 h false eq_refl) as Hh.
      destruct (supersedes h (b_store s)) eqn:S; [intros g X; injection X as <-; exact Hh|].
      intros g X. rewrite X in S. cbn in S. apply orb_false_iff in S as [S _]. apply negb_false_iff, N.eqb_eq in S. congruence.
    - unfold task_done. destruct (b_pend s) as [[h [|]]|] eqn:P;
        try (split; [exact A1|split; [rewrite P; exact A2|rewrite P; intros _; exact A3]]).
      split; [intros g X; cbn in X; apply in_app_iff in X as [X|[<-|[]]]; [exact (A1 g X)|exact (A2 h true eq_refl)]|].
      split; [intros g b X; discriminate X|]. intros _. left.
      destruct A3 as [X|[[X _]|(g & X)]]; [exact X|discriminate X|discriminate X].
    - destruct (b_pend s) as [p|] eqn:P; [|split; [exact A1|split; [rewrite P; exact A2|rewrite P; intros _; exact A3]]].
      split; [exact A1|]. split; [intros g b X; discriminate X|intros X; discriminate X]. }
  assert (Fl : {e = BFail} + {e <> BFail}) by (destruct e; (left; reflexivity) || (right; discriminate)).
  destruct Fl as [->|NF]; [rewrite fail_step by exact D; exact A'|].
  destruct (step_case c s e D) as [|P Q NM|h P Q S R He|h P S M Em]; [exact A'| | |].
  - destruct A' as (A1 & A2 & A3). split; [exact A1|]. split; [intros g b X; cbn in X; injection X as <- _; reflexivity|].
    intros _. right; right. eexists. reflexivity.
  - destruct A' as (A1 & A2 & A3). split; [exact A1|]. split; [intros g b X; cbn in X; injection X as <- _; exact He|].
    intros _. right; right. eexists. reflexivity.
  - (* a re-send happens without parents *)
    enough (Hep : bh_epoch h = c_epoch c).
    { destruct A' as (A1 & A2 & A3). split; [exact A1|]. split; [intros g b X; cbn in X; injection X as <- _; exact Hep|].
      intros _. right; right. eexists. reflexivity. }
    destruct A' as (_ & _ & A3). destruct (A3 (pre_alive c s e D NF)) as [X|[[_ X]|(g & X)]]; [exact (X h S)|contradiction|congruence].
Qed.
Lemma ep_run c evs : Forall nonempty_parents evs -> forall s, ep c s -> ep c (brun c s evs).
Proof. induction 1 as [|e evs W F IH]; intros s A; [exact A|]. cbn. apply IH. apply ep_step; assumption. Qed.
