From Verif Require Import Util PbModel PbSpec PbProofs1.
Local Open Scope N_scope.

(** the shapes of the end of the loop body *)
Definition next_round (s : bst) : N := N.max (b_round s + 1) (b_prim s + 1).
Definition new_header (c : bcfg) (s : bst) : bhdr :=
  mkBH (next_round s) (c_epoch c) (im_collect (firstn (Nat.min (length (b_queue s)) (c_max c)) (b_queue s))) (b_parents s).
Definition do_new (c : bcfg) (s : bst) : bst :=
  mkB (next_round s) (next_round s) [] (b_leader s) (skipn (Nat.min (length (b_queue s)) (c_max c)) (b_queue s))
      (b_tracked s) (b_adv s) (Some (new_header c s, false)) false false
      (b_dead s) (b_store s) (b_sched s) (b_acked s) (b_created s ++ [new_header c s]) (b_sent s) (b_done s) (b_requeued s).
Definition do_again (s : bst) (h : bhdr) : bst :=
  mkB (next_round s) (next_round s) [] (b_leader s) (b_queue s) (b_tracked s) (b_adv s) (Some (h, false)) false false
      (b_dead s) (b_store s) (b_sched s) (b_acked s) (b_created s) (b_sent s) (b_done s) (b_requeued s).
Definition do_resend (s : bst) (h : bhdr) : bst :=
  mkB (b_round s) (b_prim s) (b_parents s) (b_leader s) (b_queue s) (b_tracked s) (b_adv s) (Some (h, false)) false false
      (b_dead s) (b_store s) (b_sched s) (b_acked s) (b_created s) (b_sent s) (b_done s) (b_requeued s).
Definition no_match (c : bcfg) (s : bst) : Prop :=
  forall h, b_store s = Some h -> bh_epoch h = c_epoch c -> bh_round h <> next_round s.

Inductive tail_case (c : bcfg) (s : bst) : bst -> Prop :=
| tc_same : tail_case c s s
| tc_new : b_pend s = None -> b_parents s <> [] -> no_match c s -> tail_case c s (do_new c s)
| tc_again h : b_pend s = None -> b_parents s <> [] -> b_store s = Some h -> bh_round h = next_round s ->
    bh_epoch h = c_epoch c -> tail_case c s (do_again s h)
| tc_resend h : b_pend s = None -> b_store s = Some h -> b_maxt s = true -> b_parents s = [] -> tail_case c s (do_resend s h).

Lemma propose_next_case c s : b_pend s = None -> b_parents s <> [] -> tail_case c s (propose_next c s).
Proof.
  intros Hp Hq. unfold propose_next. fold (next_round s).
  destruct (b_store s) as [h|] eqn:E.
  - destruct ((bh_round h =? next_round s) && (bh_epoch h =? c_epoch c)) eqn:M.
    + apply andb_true_iff in M as [M1 M2]. apply N.eqb_eq in M1. apply N.eqb_eq in M2.
      replace (mkB _ _ _ _ _ _ _ _ _ _ _ (Some h) _ _ _ _ _ _) with (do_again s h)
        by (unfold do_again; rewrite E; reflexivity).
      apply tc_again; assumption.
    + replace (mkB _ _ _ _ _ _ _ _ _ _ _ (Some h) _ _ _ _ _ _) with (do_new c s)
        by (unfold do_new; rewrite E; reflexivity).
      apply tc_new; [exact Hp|exact Hq|]. intros g Hg He Hr. rewrite E in Hg. injection Hg as <-.
      rewrite Hr, He, !N.eqb_refl in M. discriminate M.
  - replace (mkB _ _ _ _ _ _ _ _ _ _ _ None _ _ _ _ _ _) with (do_new c s)
      by (unfold do_new; rewrite E; reflexivity).
    apply tc_new; [exact Hp|exact Hq|]. intros g Hg. rewrite E in Hg. discriminate Hg.
Qed.
Lemma loop_end_case c s : tail_case c s (loop_end c s).
Proof.
  unfold loop_end. destruct (b_pend s) as [p|] eqn:Hp; [apply tc_same|].
  destruct (should_create c s) eqn:Hc.
  - apply propose_next_case; [exact Hp|]. unfold should_create in Hc. destruct (b_parents s); [discriminate Hc|discriminate].
  - destruct (b_maxt s) eqn:Hm; [|apply tc_same]. destruct (b_store s) as [h|] eqn:E; [|apply tc_same].
    replace (mkB _ _ _ _ _ _ _ _ _ _ _ (Some h) _ _ _ _ _ _) with (do_resend s h)
      by (unfold do_resend; rewrite E; reflexivity).
    apply tc_resend; try assumption. unfold should_create in Hc. rewrite Hm in Hc. destruct (b_parents s); [reflexivity|discriminate Hc].
Qed.

(** what one event does before the end of the loop body *)
Definition pre (c : bcfg) (s : bst) (e : bev) : bst :=
  match e with
  | BDigest d w => set_q s (b_queue s ++ [(d, w)]) (b_acked s ++ [(d, w)])
  | BParents cs q => process_parents c cs q s
  | BReport _ rs => process_committed rs s
  | BWrite => write_record s
  | BDone => task_done s
  | BFail => match b_pend s with Some _ => fail s | None => s end
  | BMax => set_timers s true (b_mint s)
  | BMin => set_timers s (b_maxt s) true
  | BPrim v => set_parents s (b_round s) v (b_parents s)
  | BSched f => mkB (b_round s) (b_prim s) (b_parents s) (b_leader s) (b_queue s) (b_tracked s) (b_adv s) (b_pend s)
                    (b_maxt s) (b_mint s) (b_dead s) (b_store s) f (b_acked s) (b_created s) (b_sent s) (b_done s)
                    (b_requeued s)
  end.
Lemma step_case c s e : b_dead s = false -> tail_case c (pre c s e) (bstep c s e).
Proof.
  intros D. unfold bstep. rewrite D. destruct e; try (apply loop_end_case); try (apply tc_same).
  - cbn [pre]. destruct (b_pend s) as [[h [|]]|] eqn:P.
    + apply loop_end_case.
    + replace (task_done s) with s by (unfold task_done; rewrite P; reflexivity). apply tc_same.
    + replace (task_done s) with s by (unfold task_done; rewrite P; reflexivity). apply tc_same.
  - cbn [pre]. rewrite D. apply tc_same.
Qed.
Lemma step_dead c s e : b_dead s = true -> bstep c s e = s.
Proof. intros D. unfold bstep. rewrite D. reflexivity. Qed.

(** an invariant is kept by a step when it is kept by the event and by the three tails *)
Lemma step_inv (P : bst -> Prop) c :
  (forall s e, b_dead s = false -> P s -> P (pre c s e)) ->
  (forall s, b_pend s = None -> b_parents s <> [] -> no_match c s -> P s -> P (do_new c s)) ->
  (forall s h, b_pend s = None -> b_parents s <> [] -> b_store s = Some h -> bh_round h = next_round s ->
     bh_epoch h = c_epoch c -> P s -> P (do_again s h)) ->
  (forall s h, b_pend s = None -> b_store s = Some h -> b_maxt s = true -> P s -> P (do_resend s h)) ->
  forall s e, P s -> P (bstep c s e).
Proof.
  intros H1 H2 H3 H4 s e HP. destruct (b_dead s) eqn:D; [rewrite step_dead by exact D; exact HP|].
  specialize (H1 s e D HP). destruct (step_case c s e D) as [|A B C|h A B C E F|h A B C _]; [exact H1| | |].
  - apply H2; assumption.
  - apply H3; assumption.
  - apply H4; assumption.
Qed.
Lemma run_inv (P : bst -> Prop) c :
  (forall s e, P s -> P (bstep c s e)) -> forall evs s, P s -> P (brun c s evs).
Proof. intros H evs s HP. unfold brun. apply fold_left_ind; [exact HP|]. intros a b _ Ha. apply H. exact Ha. Qed.

(** the part of a parents event that matters *)
Lemma parents_shape c cs q s : exists r pr ps l a,
  process_parents c cs q s = set_adv (set_parents s r pr ps) l a /\ b_round s <= r /\
  ((r = b_round s /\ pr = b_prim s /\ (ps = b_parents s \/ (q = r /\ ps = b_parents s ++ cs)))
   \/ (r = q /\ pr = q /\ ps = cs /\ b_round s < q)).
Proof.
  unfold process_parents, ready.
  destruct (q ?= b_round s) eqn:E.
  - apply N.compare_eq in E. subst q.
    exists (b_round s), (b_prim s), (b_parents s ++ cs).
    destruct (N.even _); eexists; eexists; (split; [reflexivity|]); split; [lia| |lia|]; left; auto.
  - exists (b_round s), (b_prim s), (b_parents s).
    assert (Es : s = set_parents s (b_round s) (b_prim s) (b_parents s)) by (destruct s; reflexivity).
    destruct (N.even _); eexists; eexists; (split; [rewrite Es at 1; reflexivity|]); split; [lia| |lia|]; left; auto.
  - apply N.compare_gt_iff in E. exists q, q, cs.
    destruct (N.even _); eexists; eexists; (split; [reflexivity|]); split; [lia| |lia|]; right; auto.
Qed.

(** ** no slot is overwritten by another header of the epoch *)
Definition has (s : bst) (h : bhdr) : Prop :=
  (exists r, In (r, h) (b_tracked s)) \/ (exists b, b_pend s = Some (h, b)).
Record inv1 (c : bcfg) (s : bst) : Prop := {
  i_sorted : bm_sorted (b_tracked s);
  i_round : forall r h, In (r, h) (b_tracked s) -> bh_round h = r;
  i_below : forall h, has s h -> bh_epoch h = c_epoch c -> bh_round h <= b_round s \/ b_store s = Some h;
  i_uniq : forall h g, (has s h \/ b_store s = Some h) -> (has s g \/ b_store s = Some g) ->
             bh_epoch h = c_epoch c -> bh_epoch g = c_epoch c -> bh_round h = bh_round g -> h = g;
  i_stale : forall h, b_store s = Some h -> bh_epoch h <> c_epoch c ->
             forall r g, In (r, g) (b_tracked s) -> bh_epoch g <> c_epoch c;
  i_pstale : forall h b, b_pend s = Some (h, b) -> bh_epoch h <> c_epoch c -> b_store s = Some h;
  i_written : forall h, b_pend s = Some (h, true) -> bh_epoch h = c_epoch c ->
             exists l, b_store s = Some l /\ bh_epoch l = c_epoch c
}.
Lemma inv1_same c s s' : inv1 c s -> b_tracked s' = b_tracked s -> b_pend s' = b_pend s -> b_store s' = b_store s ->
  b_round s <= b_round s' -> inv1 c s'.
Proof.
  intros [A B C D E F G] E1 E2 E3 E4.
  assert (Hh : forall h, has s' h <-> has s h) by (intros h; unfold has; rewrite E1, E2; reflexivity).
  constructor.
  - rewrite E1. exact A.
  - rewrite E1. exact B.
  - intros h Hx He. rewrite E3. apply Hh in Hx. destruct (C h Hx He); [left; lia|right; assumption].
  - intros h g X Y. rewrite E3, Hh in X, Y. apply D; assumption.
  - rewrite E3, E1. exact E.
  - rewrite E2, E3. exact F.
  - rewrite E2, E3. exact G.
Qed.

Lemma inv1_pre c s e : b_dead s = false -> inv1 c s -> inv1 c (pre c s e).
Proof.
  intros _ I. destruct e as [d w|cs q|cr rs| | | | | |v|f]; cbn [pre].
  - apply (inv1_same c s); [exact I|reflexivity..|cbn; lia].
  - destruct (parents_shape c cs q s) as (r & pr & ps & l & a & -> & L & _).
    apply (inv1_same c s); [exact I|reflexivity..|exact L].
  - destruct I as [A B C D E F G]. rewrite process_committed_eq by exact A.
    assert (Hi : forall x, In x (still rs (b_tracked s)) -> In x (b_tracked s)).
    { intros x X. unfold still in X. apply filter_In in X. apply X. }
    set (s' := set_tracked _ _ _ _ _).
    assert (Hh : forall h, has s' h -> has s h).
    { intros h [(r & X)|X]; [left; exists r; apply Hi; exact X|right; exact X]. }
    assert (Hu : forall h, has s' h \/ b_store s' = Some h -> has s h \/ b_store s = Some h).
    { intros h [X|X]; [left; apply Hh; exact X|right; exact X]. }
    constructor.
    + unfold s', still, bm_sorted, bm_keys. cbn [b_tracked set_tracked].
      rewrite (map_filter_fst (fun k => negb (memN k rs) && (fold_left N.max rs 0 <? k))).
      apply StronglySorted_filter. exact A.
    + intros r h X. apply B. apply Hi. exact X.
    + intros h X He. apply C; [apply Hh; exact X|exact He].
    + intros h g X Y. apply D; apply Hu; assumption.
    + intros h X He r g Y. apply (E h X He r). apply Hi. exact Y.
    + exact F.
    + exact G.
  - unfold write_record. destruct (b_pend s) as [[h [|]]|] eqn:P; try exact I.
    set (st := if supersedes h (b_store s) then Some h else b_store s).
    destruct I as [A B C D E F G].
    set (s' := mkB _ _ _ _ _ _ _ _ _ _ _ _ _ _ _ _ _ _).
    assert (Hh : forall g, has s' g <-> has s g).
    { intros g. unfold has, s'. cbn [b_tracked b_pend]. rewrite P.
      split; (intros [X|(b & X)]; [left; exact X|right; eexists; injection X as <- _; reflexivity]). }
    assert (Hst : st = Some h \/ st = b_store s) by (unfold st; destruct (supersedes h (b_store s)); auto).
    assert (Hp : has s h) by (right; exists false; exact P).
    assert (Hu : forall g, has s' g \/ b_store s' = Some g -> has s g \/ b_store s = Some g).
    { intros g [X|X]; [left; apply Hh; exact X|]. unfold s' in X. cbn [b_store] in X.
      destruct Hst as [Y|Y]; rewrite Y in X; [injection X as <-; left; exact Hp|right; exact X]. }
    constructor.
    + exact A.
    + exact B.
    + intros g X He. apply Hh in X. destruct (C g X He) as [L|L]; [left; exact L|].
      unfold s', st; cbn [b_store b_round]. destruct (supersedes h (b_store s)) eqn:S; [|right; exact L].
      (* the record h replaces g *)
      rewrite L in S. cbn in S.
      destruct (N.eqb_spec (bh_epoch g) (bh_epoch h)) as [Eq|Eq]; cbn in S.
      * apply N.leb_le in S. assert (Heh : bh_epoch h = c_epoch c) by congruence.
        destruct (C h Hp Heh) as [L'|L']; [left; lia|right; congruence].
      * assert (Heh : bh_epoch h <> c_epoch c) by congruence.
        pose proof (F h false P Heh). right. congruence.
    + intros a b X Y. apply D; apply Hu; assumption.
    + intros g X He r k Y. unfold s', st in X. cbn [b_store] in X.
      destruct (supersedes h (b_store s)) eqn:S.
      * injection X as <-. exact (E h (F h false P He) He r k Y).
      * exact (E g X He r k Y).
    + intros g b X He. unfold s' in X. cbn [b_pend] in X. injection X as <- <-.
      pose proof (F h false P He) as L. unfold s', st; cbn [b_store]. destruct (supersedes h (b_store s)); [reflexivity|exact L].
    + intros g X He. unfold s' in X. cbn [b_pend] in X. injection X as <-.
      unfold s', st; cbn [b_store]. destruct (supersedes h (b_store s)) eqn:S; [exists h; auto|].
      unfold supersedes in S. destruct (b_store s) as [l|]; [|discriminate S]. exists l. split; [reflexivity|].
      apply orb_false_iff in S as [S _]. apply negb_false_iff, N.eqb_eq in S. congruence.
  - unfold task_done. destruct (b_pend s) as [[h [|]]|] eqn:P; try exact I.
    destruct I as [A B C D E F G].
    set (s' := mkB _ _ _ _ _ _ _ _ _ _ _ _ _ _ _ _ _ _).
    assert (Hp : has s h) by (right; exists true; exact P).
    assert (Ht : forall x, In x (b_tracked s') <-> x = (bh_round h, h) \/ (In x (b_tracked s) /\ fst x <> bh_round h)).
    { intros x. unfold s'. cbn [b_tracked]. apply in_tm_insert. exact A. }
    assert (Hh : forall g, has s' g -> has s g).
    { intros g [(r & X)|(b & X)]; [|discriminate X]. apply Ht in X. destruct X as [X|[X _]].
      - injection X as _ ->. exact Hp.
      - left; exists r; exact X. }
    assert (Hu : forall g, has s' g \/ b_store s' = Some g -> has s g \/ b_store s = Some g).
    { intros g [X|X]; [left; apply Hh; exact X|right; exact X]. }
    constructor.
    + apply bm_insert_sorted. exact A.
    + intros r g X. apply Ht in X. destruct X as [X|[X _]]; [injection X as -> ->; reflexivity|apply B; exact X].
    + intros g X He. apply C; [apply Hh; exact X|exact He].
    + intros a b X Y. apply D; apply Hu; assumption.
    + intros g X He r k Y. apply Ht in Y. destruct Y as [Y|[Y _]]; [|exact (E g X He r k Y)].
      injection Y as _ ->. intros He'. destruct (G h P He') as (l & L & Le). unfold s' in X. cbn [b_store] in X. congruence.
    + intros g b X. discriminate X.
    + intros g X. discriminate X.
  - destruct (b_pend s) as [p|] eqn:P; [|exact I]. destruct I as [A B C D E F G].
    assert (Hh : forall g, has (fail s) g -> has s g).
    { intros g [X|(b & X)]; [left; exact X|discriminate X]. }
    assert (Hu : forall g, has (fail s) g \/ b_store (fail s) = Some g -> has s g \/ b_store s = Some g).
    { intros g [X|X]; [left; apply Hh; exact X|right; exact X]. }
    constructor.
    + exact A.
    + exact B.
    + intros g X He. apply C; [apply Hh; exact X|exact He].
    + intros a b X Y. apply D; apply Hu; assumption.
    + exact E.
    + intros g b X. discriminate X.
    + intros g X. discriminate X.
  - apply (inv1_same c s); [exact I|reflexivity..|cbn; lia].
  - apply (inv1_same c s); [exact I|reflexivity..|cbn; lia].
  - apply (inv1_same c s); [exact I|reflexivity..|cbn; lia].
  - apply (inv1_same c s); [exact I|reflexivity..|cbn; lia].
Qed.
Lemma next_round_gt s : b_round s < next_round s.
Proof. unfold next_round. lia. Qed.

Lemma inv1_new c s : b_pend s = None -> no_match c s -> inv1 c s -> inv1 c (do_new c s).
Proof.
  intros P NM [A B C D E F G]. pose proof (next_round_gt s) as Lt.
  assert (Hh : forall g, has (do_new c s) g -> g = new_header c s \/ has s g).
  { intros g [X|(b & X)]; [right; left; exact X|]. cbn in X. injection X as <- _. left; reflexivity. }
  assert (Hx : forall g, has (do_new c s) g \/ b_store (do_new c s) = Some g ->
               g = new_header c s \/ (has s g \/ b_store s = Some g)).
  { intros g [X|X]; [destruct (Hh g X); auto|right; right; exact X]. }
  assert (Hn : forall g, has s g \/ b_store s = Some g -> bh_epoch g = c_epoch c -> bh_round g <> next_round s).
  { intros g [X|X] He Hr; [|exact (NM g X He Hr)].
    destruct (C g X He) as [L|L]; [lia|exact (NM g L He Hr)]. }
  constructor.
  - exact A.
  - exact B.
  - intros g X He. destruct (Hh g X) as [->|Y]; [left; cbn; lia|].
    destruct (C g Y He) as [L|L]; [left; cbn; lia|right; exact L].
  - intros a b X Y Ea Eb R. destruct (Hx a X) as [->|X']; destruct (Hx b Y) as [->|Y']; [reflexivity| | |].
    + exfalso. apply (Hn b Y' Eb). symmetry. exact R.
    + exfalso. apply (Hn a X' Ea). exact R.
    + apply D; assumption.
  - exact E.
  - intros g b X He. cbn in X. injection X as <- _. exfalso. apply He. reflexivity.
  - intros g X. discriminate X.
Qed.
Lemma inv1_again c s h : b_pend s = None -> b_store s = Some h -> bh_epoch h = c_epoch c ->
  inv1 c s -> inv1 c (do_again s h).
Proof.
  intros P S He [A B C D E F G]. pose proof (next_round_gt s) as Lt.
  assert (Hh : forall g, has (do_again s h) g -> g = h \/ has s g).
  { intros g [X|(b & X)]; [right; left; exact X|]. cbn in X. injection X as <- _. left; reflexivity. }
  assert (Hx : forall g, has (do_again s h) g \/ b_store (do_again s h) = Some g -> has s g \/ b_store s = Some g).
  { intros g [X|X]; [destruct (Hh g X) as [->|Y]; auto|right; exact X]. }
  constructor.
  - exact A.
  - exact B.
  - intros g X Hg. destruct (Hh g X) as [->|Y]; [right; exact S|].
    destruct (C g Y Hg) as [L|L]; [left; cbn; lia|right; exact L].
  - intros a b X Y. apply D; apply Hx; assumption.
  - exact E.
  - intros g b X Hg. cbn in X. injection X as <- _. exact S.
  - intros g X. discriminate X.
Qed.
Lemma inv1_resend c s h : b_pend s = None -> b_store s = Some h -> inv1 c s -> inv1 c (do_resend s h).
Proof.
  intros P S [A B C D E F G].
  assert (Hh : forall g, has (do_resend s h) g -> g = h \/ has s g).
  { intros g [X|(b & X)]; [right; left; exact X|]. cbn in X. injection X as <- _. left; reflexivity. }
  assert (Hx : forall g, has (do_resend s h) g \/ b_store (do_resend s h) = Some g -> has s g \/ b_store s = Some g).
  { intros g [X|X]; [destruct (Hh g X) as [->|Y]; auto|right; exact X]. }
  constructor.
  - exact A.
  - exact B.
  - intros g X Hg. destruct (Hh g X) as [->|Y]; [right; exact S|].
    destruct (C g Y Hg) as [L|L]; [left; cbn; lia|right; exact L].
  - intros a b X Y. apply D; apply Hx; assumption.
  - exact E.
  - intros g b X Hg. cbn in X. injection X as <- _. exact S.
  - intros g X. discriminate X.
Qed.
Lemma inv1_step c s e : inv1 c s -> inv1 c (bstep c s e).
Proof.
  apply (step_inv (inv1 c) c).
  - intros; apply inv1_pre; assumption.
  - intros; apply inv1_new; assumption.
  - intros; apply inv1_again; assumption.
  - intros; apply inv1_resend; assumption.
Qed.
Lemma inv1_init c prim st sch : inv1 c (b_new c prim st sch).
Proof.
  assert (Hh : forall g, ~ has (b_new c prim st sch) g) by (intros g [(r & [])|(b & X)]; discriminate X).
  constructor.
  - constructor.
  - intros r h [].
  - intros h X. contradiction (Hh h X).
  - intros h g [X|X] [Y|Y]; try (exfalso; eapply Hh; eassumption). intros _ _ _. congruence.
  - intros h _ _ r g [].
  - intros h b X. discriminate X.
  - intros h X. discriminate X.
Qed.
Lemma inv1_run c prim st sch evs : inv1 c (brun c (b_new c prim st sch) evs).
Proof. apply run_inv; [intros; apply inv1_step; assumption|apply inv1_init]. Qed.

(** ** nothing acknowledged is lost *)
Definition owed (c : bcfg) (s : bst) (d : N) : Prop :=
  In d (keys (b_acked s)) \/ exists h, In h (b_sent s) /\ bh_epoch h = c_epoch c /\ carries h d.
Definition cover (c : bcfg) (s : bst) : Prop := b_dead s = false -> forall d, owed c s d -> accounted c s d.

Lemma flat_keys (m : tmap) d : In d (keys (flat_map (fun x => bh_payload (snd x)) m)) <->
  exists r h, In (r, h) m /\ carries h d.
Proof.
  unfold keys, carries. rewrite in_map_iff. split.
  - intros (x & <- & X). apply in_flat_map in X as ([r h] & X & Y). exists r, h. split; [exact X|]. apply in_map. exact Y.
  - intros (r & h & X & Y). apply in_map_iff in Y as (x & <- & Y). exists x. split; [reflexivity|].
    apply in_flat_map. exists (r, h). split; [exact X|exact Y].
Qed.

Lemma cover_pre c s e : b_dead s = false -> inv1 c s -> cover c s -> cover c (pre c s e).
Proof.
  intros Dd I Cv. specialize (Cv Dd). destruct e as [d w|cs q|cr rs| | | | | |v|f]; cbn [pre].
  - intros _ x O. unfold accounted. cbn [b_queue b_pend b_tracked b_done set_q]. unfold keys. rewrite map_app, in_app_iff.
    destruct O as [O|O].
    + cbn [b_acked set_q] in O. unfold keys in O. rewrite map_app, in_app_iff in O.
      destruct O as [O|O]; [|left; right; exact O].
      destruct (Cv x (or_introl O)) as [X|X]; [left; left; exact X|right; exact X].
    + destruct (Cv x (or_intror O)) as [X|X]; [left; left; exact X|right; exact X].
  - destruct (parents_shape c cs q s) as (r & pr & ps & l & a & -> & _). intros _ x O. exact (Cv x O).
  - rewrite process_committed_eq by apply I. intros _ x O. specialize (Cv x O).
    unfold accounted. cbn [b_queue b_pend b_tracked b_done set_tracked].
    destruct Cv as [X|[X|[(r & h & X & He & Y)|(h & X & Y)]]].
    + left. unfold keys. rewrite map_app, in_app_iff. right; exact X.
    + right; left; exact X.
    + destruct (memN r rs) eqn:M.
      * right; right; right. exists h. split; [|exact Y]. apply take_done_In; [apply I|]. right. exists r.
        split; [apply memN_In; exact M|exact X].
      * destruct (N.leb_spec r (fold_left N.max rs 0)) as [L|L].
        { left. unfold keys. rewrite map_app, in_app_iff. left. apply flat_keys. exists r, h. split; [|exact Y].
          unfold given_up. apply filter_In. split; [exact X|]. cbn [fst]. rewrite M. cbn. apply N.leb_le. exact L. }
        { right; right; left. exists r, h. split; [|split; [exact He|exact Y]].
          unfold still. apply filter_In. split; [exact X|]. cbn [fst]. rewrite M. cbn. apply N.ltb_lt. exact L. }
    + right; right; right. exists h. split; [|exact Y]. apply take_done_In; [apply I|]. left. exact X.
  - unfold write_record. destruct (b_pend s) as [[h [|]]|] eqn:P; try (intros _; exact Cv).
    intros _ x O. specialize (Cv x O). unfold accounted in *. cbn [b_queue b_pend b_tracked b_done].
    destruct Cv as [X|[(g & b & X & Y)|X]]; [left; exact X| |right; right; exact X].
    right; left. rewrite P in X. injection X as <- <-. exists h, true. split; [reflexivity|exact Y].
  - unfold task_done. destruct (b_pend s) as [[h [|]]|] eqn:P; try (intros _; exact Cv).
    destruct I as [A B C D E F G].
    set (s' := mkB _ _ _ _ _ _ _ _ _ _ _ _ _ _ _ _ _ _). intros _ x O.
    assert (Ht : forall y, In y (b_tracked s') <-> y = (bh_round h, h) \/ (In y (b_tracked s) /\ fst y <> bh_round h)).
    { intros y. unfold s'. cbn [b_tracked]. apply in_tm_insert. exact A. }
    assert (New : bh_epoch h = c_epoch c -> carries h x -> accounted c s' x).
    { intros He Hc. right; right; left. exists (bh_round h), h. split; [apply Ht; left; reflexivity|split; assumption]. }
    assert (Ac : accounted c s x -> accounted c s' x).
    { intros [X|[(g & b & X & He & Y)|[(r & g & X & He & Y)|X]]].
      - left; exact X.
      - rewrite P in X. injection X as <- <-. exact (New He Y).
      - destruct (N.eq_dec r (bh_round h)) as [->|Ne].
        + (* the slot is overwritten: by the same header *)
          pose proof (B _ _ X) as Rg.
          destruct (N.eq_dec (bh_epoch h) (c_epoch c)) as [He'|He'].
          * assert (g = h) as ->.
            { apply D; [left; left; eexists; exact X|left; right; eexists; exact P|exact He|exact He'|exact Rg]. }
            exact (New He Y).
          * exfalso. exact (E h (F h true P He') He' _ _ X He).
        + right; right; left. exists r, g. split; [apply Ht; right; split; [exact X|exact Ne]|split; assumption].
      - right; right; right. exact X. }
    destruct O as [O|(g & O & He & Hc)].
    + apply Ac. apply Cv. left. exact O.
    + unfold s' in O. cbn [b_sent] in O. apply in_app_iff in O as [O|[<-|[]]].
      * apply Ac. apply Cv. right. exists g. auto.
      * exact (New He Hc).
  - destruct (b_pend s) as [p|]; [intros X; discriminate X|intros _; exact Cv].
  - intros _ x O. exact (Cv x O).
  - intros _ x O. exact (Cv x O).
  - intros _ x O. exact (Cv x O).
  - intros _ x O. exact (Cv x O).
Qed.
Lemma cover_step c s e : inv1 c s -> cover c s -> cover c (bstep c s e).
Proof.
  intros I Cv.
  enough (inv1 c (bstep c s e) /\ cover c (bstep c s e)) as [_ X] by exact X.
  revert s e I Cv. intros s e I Cv.
  apply (step_inv (fun s => inv1 c s /\ cover c s) c).
  - intros s0 e0 D0 [I0 C0]. split; [apply inv1_pre|apply cover_pre]; assumption.
  - intros s0 P Q NM [I0 C0]. split; [apply inv1_new; assumption|]. intros D0 x O.
    destruct (C0 D0 x O) as [X|[(h & b & X & _)|X]]; [|congruence|right; right; exact X].
    unfold keys in X. rewrite <- (firstn_skipn (Nat.min (length (b_queue s0)) (c_max c)) (b_queue s0)), map_app, in_app_iff in X.
    destruct X as [X|X]; [|left; exact X].
    right; left. exists (new_header c s0), false. split; [reflexivity|]. split; [reflexivity|].
    unfold carries, new_header. cbn [bh_payload]. apply im_collect_keys. exact X.
  - intros s0 h P Q S R He [I0 C0]. split; [apply inv1_again; assumption|]. intros D0 x O.
    destruct (C0 D0 x O) as [X|[(g & b & X & _)|X]]; [left; exact X|congruence|right; right; exact X].
  - intros s0 h P S M [I0 C0]. split; [apply inv1_resend; assumption|]. intros D0 x O.
    destruct (C0 D0 x O) as [X|[(g & b & X & _)|X]]; [left; exact X|congruence|right; right; exact X].
  - split; assumption.
Qed.
Lemma cover_run c prim st sch evs : cover c (brun c (b_new c prim st sch) evs).
Proof.
  assert (inv1 c (brun c (b_new c prim st sch) evs) /\ cover c (brun c (b_new c prim st sch) evs)) as [_ X]; [|exact X].
  apply (run_inv (fun s => inv1 c s /\ cover c s)).
  - intros s e [I Cv]. split; [apply inv1_step|apply cover_step]; assumption.
  - split; [apply inv1_init|]. intros _ d [[]|(h & [] & _)].
Qed.
