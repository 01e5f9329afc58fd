(** Proofs for C34. *)
From Verif Require Import Util Types GasModel GasProofs RecountModel RecountSpec.
Local Open Scope N_scope.

(** ** Counting *)
Lemma lead_inc c id a :
  lead_count (inc_count c id) a =
  if a =? id then (lead_count c a + 1) mod 2 ^ 32 else lead_count c a.
Proof.
  unfold lead_count. induction c as [|[i n] c IH]; cbn [inc_count find fst snd].
  - rewrite (N.eqb_sym id a). destruct (N.eqb_spec a id); reflexivity.
  - destruct (N.eqb_spec i id) as [->|ne]; cbn [find fst].
    + rewrite (N.eqb_sym id a). destruct (N.eqb_spec a id); reflexivity.
    + destruct (N.eqb_spec i a) as [->|na].
      * destruct (N.eqb_spec a id); [contradiction|reflexivity].
      * exact IH.
Qed.

Lemma led_snoc a l o : led a (l ++ [o]) = (led a l + (if o_leader o =? a then 1 else 0)) mod 2 ^ 32.
Proof.
  unfold led. rewrite filter_app, app_length. cbn [filter].
  rewrite N.add_mod_idemp_l by lia. f_equal.
  destruct (o_leader o =? a); cbn [length]; lia.
Qed.
Lemma led_lt a l : led a l < 2 ^ 32.
Proof. unfold led. apply N.mod_lt. lia. Qed.

Lemma lead_inc_led c l o a :
  (forall a, lead_count c a = led a l) -> lead_count (inc_count c (o_leader o)) a = led a (l ++ [o]).
Proof.
  intros H. rewrite lead_inc, led_snoc, (N.eqb_sym (o_leader o) a), H.
  destruct (a =? o_leader o); [reflexivity|].
  rewrite N.add_0_r, N.mod_small; [reflexivity|apply led_lt].
Qed.

Definition counted (b : N) (l : list out) : list out :=
  filter (fun o => negb (o_round o =? 0) && (o_round o <=? b)) l.

Lemma count_leaders_spec_gen l b c l0 :
  (forall a, lead_count c a = led a l0) ->
  forall a, lead_count (fold_left (fun c o =>
    if o_round o =? 0 then c else if b <? o_round o then c else inc_count c (o_leader o)) l c) a
  = led a (l0 ++ counted b l).
Proof.
  revert c l0. induction l as [|o l IH]; intros c l0 H a; cbn [fold_left counted filter].
  - rewrite app_nil_r. apply H.
  - fold (counted b l). destruct (N.eqb_spec (o_round o) 0) as [E|E]; cbn [negb andb].
    + apply IH, H.
    + destruct (N.ltb_spec b (o_round o)) as [L|L].
      * destruct (N.leb_spec (o_round o) b); [lia|]. apply IH, H.
      * destruct (N.leb_spec (o_round o) b); [|lia].
        change (l0 ++ o :: counted b l) with (l0 ++ ([o] ++ counted b l)).
        rewrite app_assoc. apply IH.
        intros a'. apply lead_inc_led, H.
Qed.

Lemma led_perm a l l' : Permutation l l' -> led a l = led a l'.
Proof.
  intros P. unfold led. f_equal. f_equal.
  induction P; cbn [filter]; [reflexivity| | |congruence].
  - destruct (o_leader x =? a); cbn [length]; congruence.
  - destruct (o_leader x =? a), (o_leader y =? a); reflexivity.
Qed.
Lemma filter_perm {A} (f : A -> bool) l l' : Permutation l l' -> Permutation (filter f l) (filter f l').
Proof.
  induction 1; cbn [filter]; [constructor| | |eauto using Permutation_trans].
  - destruct (f x); [constructor|]; assumption.
  - destruct (f x), (f y); try apply Permutation_refl. apply perm_swap.
Qed.

Lemma count_leaders_spec pack b a :
  lead_count (count_leaders pack b []) a = led a (counted b pack).
Proof.
  unfold count_leaders. rewrite (count_leaders_spec_gen (rev pack) b [] []); [|reflexivity].
  cbn [app]. apply led_perm, filter_perm, Permutation_sym, Permutation_rev.
Qed.

(** ** The log *)
Definition before (p q : out) : Prop :=
  o_epoch p < o_epoch q \/ (o_epoch p = o_epoch q /\ o_round p < o_round q /\ o_close p = false).
Definition numbered (log : list out) : Prop :=
  forall i o, nth_error log i = Some o -> o_num o = N.of_nat i + 1.

Lemma by_number_nth log n :
  numbered log -> 0 < n -> by_number log n = nth_error log (N.to_nat (n - 1)).
Proof.
  intros H Hn. unfold by_number.
  destruct (nth_error log (N.to_nat (n - 1))) as [o|] eqn:E.
  - destruct (find (fun o => o_num o =? n) log) as [o'|] eqn:F.
    + apply find_some in F as [Hin Heq]. apply N.eqb_eq in Heq.
      apply In_nth_error in Hin as (j & Hj). pose proof (H _ _ Hj).
      assert (j = N.to_nat (n - 1)) by lia. subst j. congruence.
    + exfalso. apply nth_error_In in E as Hin.
      pose proof (find_none _ _ F _ Hin) as X. cbv beta in X.
      rewrite (H _ _ E) in X. apply N.eqb_neq in X. lia.
  - destruct (find (fun o => o_num o =? n) log) as [o'|] eqn:F; [|reflexivity].
    exfalso. apply find_some in F as [Hin Heq]. apply N.eqb_eq in Heq.
    apply In_nth_error in Hin as (j & Hj). pose proof (H _ _ Hj).
    assert (j = N.to_nat (n - 1)) by lia. subst j. congruence.
Qed.

Lemma nth_error_skipn {A} k i (l : list A) : nth_error (skipn k l) i = nth_error l (k + i)%nat.
Proof.
  revert l. induction k; intros l; [reflexivity|]. destruct l; cbn; [|apply IHk].
  destruct i; reflexivity.
Qed.
Lemma skipn_nth_cons {A} k (l : list A) x : nth_error l k = Some x -> skipn k l = x :: skipn (S k) l.
Proof.
  revert l. induction k; intros [|y l] E; cbn in *; try discriminate E.
  - injection E as ->. reflexivity.
  - apply IHk, E.
Qed.

Lemma collect_skipn log : numbered log -> forall fuel k,
  (k + fuel = length log)%nat ->
  collect log (N.of_nat k + 1) fuel = skipn k log.
Proof.
  intros H. induction fuel as [|f IH]; intros k L; cbn [collect].
  - rewrite skipn_all2 by lia. reflexivity.
  - rewrite by_number_nth by (assumption || lia).
    replace (N.to_nat (N.of_nat k + 1 - 1)) with k by lia.
    destruct (nth_error log k) as [o|] eqn:E.
    + rewrite (skipn_nth_cons _ _ _ E). f_equal.
      replace (N.of_nat k + 1 + 1) with (N.of_nat (S k) + 1) by lia. apply IH. lia.
    + apply nth_error_None in E. lia.
Qed.

Lemma sorted_app_elim {A} (R : A -> A -> Prop) l1 l2 :
  StronglySorted R (l1 ++ l2) ->
  StronglySorted R l1 /\ StronglySorted R l2 /\ forall x y, In x l1 -> In y l2 -> R x y.
Proof.
  induction l1 as [|a l1 IH]; cbn [app]; intros H.
  - repeat split; [constructor|assumption|intros x y []].
  - apply StronglySorted_inv in H as [H1 H2]. destruct (IH H1) as (I1 & I2 & I3).
    rewrite Forall_forall in H2. repeat split.
    + constructor; [assumption|]. apply Forall_forall. intros x Hx. apply H2, in_or_app. auto.
    + assumption.
    + intros x y [->|Hx] Hy; [apply H2, in_or_app; auto|apply I3; assumption].
Qed.
Lemma sorted_snoc {A} (R : A -> A -> Prop) l x :
  StronglySorted R l -> (forall y, In y l -> R y x) -> StronglySorted R (l ++ [x]).
Proof.
  induction l as [|a l IH]; cbn [app]; intros H1 H2.
  - constructor; constructor.
  - apply StronglySorted_inv in H1 as [H1 H3]. constructor.
    + apply IH; [assumption|]. intros y Hy. apply H2. right. assumption.
    + apply Forall_app. split; [assumption|]. constructor; [apply H2; left; reflexivity|constructor].
Qed.

(** ** Invariant *)
Definition tip_ok (done : list out) (tip : option out) : Prop :=
  match tip with
  | None => Forall (fun o => produces_block o = false) done
  | Some o => exists d1 d2, done = d1 ++ o :: d2 /\ Forall (fun o => produces_block o = false) d2
  end.

Record inv (s : node) (done : list out) : Prop := {
  i_num : numbered (d_log (n_disk s));
  i_sort : StronglySorted before (d_log (n_disk s));
  i_pos : forall o, In o (d_log (n_disk s)) ->
            0 < o_round o /\ o_round o < 2 ^ 32 /\ o_epoch o < 2 ^ 32 /\ o_epoch o <= n_pack s;
  i_split : d_log (n_disk s) = done ++ n_queue s;
  i_tip : tip_ok done (d_tip (n_disk s));
  i_cnt : forall a, lead_count (n_counts s) a = led a (in_epoch (n_pack s) done);
  i_q : forall o, In o (n_queue s) -> o_epoch o = n_pack s;
  i_ep : (n_pack s = d_epoch (n_disk s) /\
            forall o, In o done -> o_epoch o = n_pack s -> o_close o = false) \/
         (n_pack s + 1 = d_epoch (n_disk s) /\ n_queue s = []);
  i_tipep : match d_tip (n_disk s) with
            | None => d_epoch (n_disk s) = 0
            | Some o => o_epoch o = d_epoch (n_disk s) \/
                        (o_close o = true /\ o_epoch o + 1 = d_epoch (n_disk s))
            end }.

Lemma in_epoch_snoc e l o : in_epoch e (l ++ [o]) = in_epoch e l ++ (if o_epoch o =? e then [o] else []).
Proof. unfold in_epoch. rewrite filter_app. cbn [filter]. destruct (o_epoch o =? e); reflexivity. Qed.

Lemma filter_all {A} (f : A -> bool) l : (forall x, In x l -> f x = true) -> filter f l = l.
Proof.
  induction l as [|a l IH]; intros H; cbn [filter]; [reflexivity|].
  rewrite (H a (or_introl eq_refl)), IH; [reflexivity|]. intros x Hx. apply H. right. assumption.
Qed.
Lemma filter_none {A} (f : A -> bool) l : (forall x, In x l -> f x = false) -> filter f l = [].
Proof.
  induction l as [|a l IH]; intros H; cbn [filter]; [reflexivity|].
  rewrite (H a (or_introl eq_refl)), IH; [reflexivity|]. intros x Hx. apply H. right. assumption.
Qed.

Lemma replay_all e l : (forall o, In o l -> o_epoch o = e) -> StronglySorted before l ->
  replay_queue e l = Some l.
Proof.
  induction l as [|o l IH]; intros He Hs; cbn [replay_queue]; [reflexivity|].
  apply StronglySorted_inv in Hs as [Hs1 Hs2]. rewrite Forall_forall in Hs2.
  rewrite (proj2 (N.eqb_eq _ _) (He o (or_introl eq_refl))). cbn [negb].
  destruct (o_close o) eqn:C.
  - destruct l as [|p l]; [reflexivity|]. exfalso.
    pose proof (He o (or_introl eq_refl)). pose proof (He p (or_intror (or_introl eq_refl))).
    destruct (Hs2 p (or_introl eq_refl)) as [X|(_ & _ & X)]; [lia|congruence].
  - rewrite IH; [reflexivity| |assumption]. intros x Hx. apply He. right. assumption.
Qed.

Lemma last_log_epoch (log : list out) : forall l t, rev log = l :: t -> log = rev t ++ [l].
Proof. intros l t E. rewrite <- (rev_involutive log), E. reflexivity. Qed.

Lemma restart_ok s done : inv s done -> hint_fresh (n_disk s) ->
  exists s' done' r, restart (n_disk s) = Some s' /\ inv s' done' /\ done = done' ++ r /\
    n_queue s' = r ++ n_queue s /\ n_disk s' = n_disk s /\
    Forall (fun o => produces_block o = false) r /\ n_pack s' = d_epoch (n_disk s) /\
    match d_tip (n_disk s) with None => done' = [] | Some o => exists l, done' = l ++ [o] end.
Proof.
  intros [I1 I2 I3 I4 I5 I6 I7 I8 I9] F. set (d := n_disk s) in *.
  assert (CUT : exists d' r, done = d' ++ r /\ Forall (fun o => produces_block o = false) r /\
    match d_tip d with None => d' = [] | Some o => exists d1, d' = d1 ++ [o] end).
  { destruct (d_tip d) as [o|]; cbn [tip_ok] in I5.
    - destruct I5 as (d1 & d2 & E & Z). exists (d1 ++ [o]), d2.
      split; [rewrite <- app_assoc; exact E|]. split; [exact Z|exists d1; reflexivity].
    - exists [], done. split; [reflexivity|]. split; [exact I5|reflexivity]. }
  destruct CUT as (d' & r & Ed & Zr & Ct).
  assert (EL : d_log d = d' ++ (r ++ n_queue s)) by (rewrite I4, Ed, app_assoc; reflexivity).
  assert (SS : StronglySorted before (d' ++ (r ++ n_queue s))) by (rewrite <- EL; exact I2).
  apply sorted_app_elim in SS as (S1 & S2 & S3).
  assert (PE : n_pack s <= d_epoch d) by (destruct I8 as [[? _]|[? _]]; lia).
  assert (RE : forall o, In o (r ++ n_queue s) -> o_epoch o = d_epoch d).
  { intros o Ho.
    assert (B : o_epoch o <= n_pack s).
    { apply I3. rewrite EL. apply in_or_app. right. exact Ho. }
    destruct (d_tip d) as [t|] eqn:Et.
    - destruct Ct as (d1 & ->).
      assert (In t (d1 ++ [t])) as Ht by (apply in_or_app; right; left; reflexivity).
      pose proof (S3 t o Ht Ho) as [X|(X & _ & Y)].
      + destruct I9 as [Z|[_ Z]]; lia.
      + destruct I9 as [Z|[Z1 Z2]]; [lia|congruence].
    - rewrite I9 in *. lia. }
  (* where the executed tip is *)
  assert (LE : last_exec_num d = N.of_nat (length d')).
  { unfold last_exec_num. destruct (d_tip d) as [t|] eqn:Et.
    - destruct Ct as (d1 & ->).
      assert (NT : nth_error (d_log d) (length d1) = Some t).
      { rewrite EL, <- app_assoc. rewrite nth_error_app2 by lia. rewrite Nat.sub_diag. reflexivity. }
      pose proof (I1 _ _ NT) as On.
      destruct (find (fun x => o_num x =? o_num t) (pack_of (d_log d) (o_epoch t))) as [x|] eqn:Fx.
      + apply find_some in Fx as [_ Fx]. apply N.eqb_eq in Fx. rewrite Fx, On, app_length. cbn. lia.
      + exfalso. assert (In t (pack_of (d_log d) (o_epoch t))) as Hin.
        { unfold pack_of. apply filter_In. split; [eapply nth_error_In; exact NT|apply N.eqb_refl]. }
        pose proof (find_none _ _ Fx _ Hin) as X. cbv beta in X. rewrite N.eqb_refl in X. discriminate X.
    - rewrite Ct. reflexivity. }
  assert (LD : last_db_num d = N.of_nat (length (d_log d))).
  { unfold last_db_num, hint_fresh in *. destruct (rev (d_log d)) as [|l t] eqn:Er.
    - assert (d_log d = []) as E0 by (rewrite <- (rev_involutive (d_log d)), Er; reflexivity).
      rewrite E0 in *. cbn. rewrite LE. destruct d'; [reflexivity|discriminate EL].
    - apply last_log_epoch in Er as El. rewrite F.
      assert (rev (pack_of (d_log d) (o_epoch l)) = l :: rev (pack_of (rev t) (o_epoch l))) as Ep.
      { rewrite El. unfold pack_of. rewrite filter_app. cbn [filter]. rewrite N.eqb_refl.
        rewrite rev_app_distr. reflexivity. }
      rewrite Ep.
      assert (nth_error (d_log d) (length (rev t)) = Some l) as NT.
      { rewrite El, nth_error_app2 by lia. rewrite Nat.sub_diag. reflexivity. }
      rewrite (I1 _ _ NT), El, app_length. cbn. lia. }
  assert (GM : get_missing d = r ++ n_queue s).
  { unfold get_missing. rewrite LE, LD.
    assert (SK : skipn (length d') (d_log d) = r ++ n_queue s).
    { rewrite EL, skipn_app, skipn_all, Nat.sub_diag. reflexivity. }
    assert (LL : length (d_log d) = (length d' + length (r ++ n_queue s))%nat)
      by (rewrite EL, app_length; reflexivity).
    destruct (N.ltb_spec (N.of_nat (length d')) (N.of_nat (length (d_log d)))).
    - rewrite collect_skipn; [exact SK|exact I1|lia].
    - destruct (r ++ n_queue s); [reflexivity|cbn [length] in LL; lia]. }
  unfold restart. rewrite GM, replay_all; [|exact RE|exact S2]. cbn [option_map].
  eexists _, d', r. split; [reflexivity|]. split; [|repeat split; assumption].
  (* counters *)
  assert (CN : forall a, lead_count (catchup_leaders d) a = led a (in_epoch (d_epoch d) d')).
  { intros a. unfold catchup_leaders. destruct (d_tip d) as [t|] eqn:Et.
    - destruct Ct as (d1 & ->).
      assert (In t (d_log d)) as Ht.
      { rewrite EL. apply in_or_app. left. apply in_or_app. right. left. reflexivity. }
      destruct (I3 t Ht) as (P1 & P2 & P3 & P4).
      rewrite nonce_roundtrip by assumption.
      destruct (N.ltb_spec 0 (o_round t)); [|lia]. cbn [andb].
      destruct (N.eqb_spec (o_epoch t) (d_epoch d)) as [E|E].
      + rewrite count_leaders_spec.
        assert (H1 : d_hint d = d_epoch d).
        { unfold hint_fresh in F. destruct (rev (d_log d)) as [|l u] eqn:Er.
          - rewrite <- (rev_involutive (d_log d)), Er in Ht. destruct Ht.
          - rewrite F. apply last_log_epoch in Er as El.
            destruct (r ++ n_queue s) as [|x rest] eqn:Erq.
            + rewrite app_nil_r, El in EL. apply app_inj_tail in EL as [_ ->]. exact E.
            + apply RE. rewrite El in EL.
              destruct (exists_last (l := x :: rest) ltac:(discriminate)) as (a0 & b0 & Eab).
              rewrite Eab in *. rewrite app_assoc in EL. apply app_inj_tail in EL as [_ ->].
              apply in_or_app. right. left. reflexivity. }
        rewrite H1. f_equal. unfold pack_of, counted, in_epoch.
        rewrite EL, filter_app, filter_app.
        rewrite (filter_none _ (filter _ (r ++ n_queue s))).
        * rewrite app_nil_r. apply filter_all. intros x Hx. apply filter_In in Hx as [Hx1 Hx2].
          apply N.eqb_eq in Hx2.
          assert (In x (d_log d)) as Hxl by (rewrite EL; apply in_or_app; left; exact Hx1).
          destruct (I3 x Hxl) as (Q1 & _).
          destruct (N.eqb_spec (o_round x) 0); [lia|]. cbn [negb andb].
          apply N.leb_le. apply in_app_or in Hx1 as [Hx1|[->|[]]]; [|lia].
          apply sorted_app_elim in S1 as (_ & _ & S4).
          destruct (S4 x t Hx1 (or_introl eq_refl)) as [X|(_ & X & _)]; [|lia].
          lia.
        * intros x Hx. apply filter_In in Hx as [Hx1 Hx2].
          assert (In t (d1 ++ [t])) as Htt by (apply in_or_app; right; left; reflexivity).
          pose proof (RE x Hx1) as Rx.
          destruct (S3 t x Htt Hx1) as [X|(_ & X & _)]; [lia|].
          destruct (N.leb_spec (o_round x) (o_round t)); [lia|].
          apply andb_false_r.
      + destruct I9 as [Z|[Z1 Z2]]; [contradiction|].
        unfold in_epoch. rewrite filter_none; [reflexivity|].
        intros x Hx. apply N.eqb_neq. intros Ex.
        apply in_app_or in Hx as [Hx|[->|[]]]; [|lia].
        apply sorted_app_elim in S1 as (_ & _ & S4).
        destruct (S4 x t Hx (or_introl eq_refl)) as [X|(X & _ & _)]; lia.
    - rewrite Ct. reflexivity. }
  constructor; cbn [n_disk n_pack n_counts n_queue]; try assumption.
  - intros o Ho. destruct (I3 o Ho) as (P1 & P2 & P3 & P4). repeat split; try assumption. lia.
  - destruct (d_tip d) as [t|]; cbn [tip_ok].
    + destruct Ct as (d1 & ->). exists d1, []. split; [reflexivity|constructor].
    + rewrite Ct. constructor.
  - left. split; [reflexivity|]. intros o Ho Eo.
    destruct (o_close o) eqn:Eclose; [|reflexivity]. exfalso.
    destruct I8 as [[I8a I8b]|[I8a I8b]].
    + assert (In o done) as Hd by (rewrite Ed; apply in_or_app; left; exact Ho).
      rewrite (I8b o Hd) in Eclose; [discriminate Eclose|lia].
    + assert (In o (d_log d)) as Hl by (rewrite EL; apply in_or_app; left; exact Ho).
      destruct (I3 o Hl) as (_ & _ & _ & P4). lia.
Qed.

(** A closing output is the last one of its epoch, so at most one is executed per epoch. *)
Lemma inv_exec s done s' : inv s done -> exec_next s = Some s' ->
  exists o q, n_queue s = o :: q /\ n_queue s' = q /\ inv s' (done ++ [o]).
Proof.
  intros [I1 I2 I3 I4 I5 I6 I7 I8 I9] E. unfold exec_next in E.
  destruct (n_queue s) as [|o q] eqn:Eq; [discriminate E|]. exists o, q.
  split; [reflexivity|].
  destruct I8 as [[I8a I8b]|[_ I8b]]; [|discriminate I8b].
  pose proof (I7 o (or_introl eq_refl)) as Eo.
  assert (SS := I2). rewrite I4 in SS. apply sorted_app_elim in SS as (S1 & S2 & S3).
  apply StronglySorted_inv in S2 as [S2 S2']. rewrite Forall_forall in S2'.
  assert (CN : forall a, lead_count (inc_count (n_counts s) (o_leader o)) a =
                         led a (in_epoch (n_pack s) (done ++ [o]))).
  { intros a. rewrite in_epoch_snoc, Eo, N.eqb_refl. apply lead_inc_led, I6. }
  assert (DL : d_log (n_disk s) = (done ++ [o]) ++ q) by (rewrite <- app_assoc; exact I4).
  unfold execute in E. destruct (produces_block o) eqn:PB; injection E as <-; split; try reflexivity;
    constructor; cbn [n_disk n_pack n_counts n_queue d_log d_tip d_epoch]; try assumption.
  - exists done, []. split; [reflexivity|constructor].
  - intros x Hx. apply I7. right. assumption.
  - destruct (o_close o) eqn:C.
    + right. split; [lia|]. destruct q as [|p q]; [reflexivity|]. exfalso.
      pose proof (I7 p (or_intror (or_introl eq_refl))).
      destruct (S2' p (or_introl eq_refl)) as [X|(_ & _ & X)]; [lia|congruence].
    + left. split; [assumption|]. intros x Hx Ex. apply in_app_or in Hx as [Hx|[->|[]]]; [|assumption].
      apply I8b; assumption.
  - destruct (o_close o) eqn:C; [right; split; [reflexivity|lia]|left; lia].
  - destruct (d_tip (n_disk s)) as [t|]; cbn [tip_ok] in *.
    + destruct I5 as (d1 & d2 & -> & Z). exists d1, (d2 ++ [o]). split.
      * rewrite <- app_assoc. reflexivity.
      * apply Forall_app. split; [assumption|]. constructor; [assumption|constructor].
    + apply Forall_app. split; [assumption|]. constructor; [assumption|constructor].
  - intros x Hx. apply I7. right. assumption.
  - left. split; [assumption|]. intros x Hx Ex. apply in_app_or in Hx as [Hx|[->|[]]].
    + apply I8b; assumption.
    + unfold produces_block in PB. apply orb_false_iff in PB. apply PB.
Qed.

Lemma reach_inv s : reach s -> exists done, inv s done.
Proof.
  induction 1 as [|s o s' R (done & I) N E|s s' R (done & I) E|s s' R (done & I) E
                 |s s' R (done & I) E|s s' R (done & I) F E].
  - exists []. constructor; cbn; try (intros; contradiction || reflexivity); try constructor; try reflexivity.
    + intros [|i] o H; discriminate H.
    + split; [reflexivity|]. intros o [].
  - exists done. destruct I as [I1 I2 I3 I4 I5 I6 I7 I8 I9].
    destruct N as (N1 & N2 & N3 & N4 & N5 & N6).
    cbn [step] in E. unfold save in E. cbv zeta in E.
    destruct (_ || _) in E; [discriminate E|]. injection E as <-.
    constructor; cbn [n_disk n_pack n_counts n_queue d_log d_tip d_epoch]; try assumption.
    + intros i x Hi. destruct (Nat.lt_ge_cases i (length (d_log (n_disk s)))).
      * rewrite nth_error_app1 in Hi by assumption. apply I1, Hi.
      * rewrite nth_error_app2 in Hi by assumption.
        destruct (i - length (d_log (n_disk s)))%nat as [|k] eqn:Ek; cbn in Hi.
        -- injection Hi as <-. lia.
        -- destruct k; discriminate Hi.
    + apply sorted_snoc; [assumption|]. intros y Hy. unfold before. rewrite N2.
      destruct (I3 y Hy) as (_ & _ & _ & Le).
      destruct (N.eq_dec (o_epoch y) (n_pack s)) as [Ey|Ey]; [right|left; lia].
      destruct (N6 y Hy Ey). auto.
    + intros x Hx. apply in_app_or in Hx as [Hx|[<-|[]]]; [apply I3, Hx|].
      rewrite N2. repeat split; try assumption. lia.
    + rewrite I4, app_assoc. reflexivity.
    + intros x Hx. apply in_app_or in Hx as [Hx|[<-|[]]]; [apply I7, Hx|exact N2].
    + destruct I8 as [I8|[I8a I8b]]; [left; exact I8|]. exfalso.
      (* the epoch is closed: the tip is a closing output of the current pack *)
      destruct (d_tip (n_disk s)) as [t|] eqn:Et; [|lia].
      cbn [tip_ok] in I5. destruct I5 as (d1 & d2 & Ed & _).
      assert (In t (d_log (n_disk s))) as Ht.
      { rewrite I4, Ed. apply in_or_app. left. apply in_or_app. right. left. reflexivity. }
      destruct (I3 t Ht) as (_ & _ & _ & Le).
      destruct I9 as [Z|[Z1 Z2]]; [lia|].
      destruct (N6 t Ht ltac:(lia)) as [_ X]. congruence.
  - exists done. destruct I as [I1 I2 I3 I4 I5 I6 I7 I8 I9].
    cbn [step] in E. injection E as <-. unfold flush_hint.
    destruct (rev (d_log (n_disk s))); constructor; assumption.
  - cbn [step] in E. destruct (inv_exec _ _ _ I E) as (o & q & _ & _ & I'). eexists; exact I'.
  - exists done. destruct I as [I1 I2 I3 I4 I5 I6 I7 I8 I9].
    cbn [step] in E. unfold close_epoch in E.
    destruct (n_queue s) as [|] eqn:Eq; [|discriminate E].
    destruct (N.ltb_spec (n_pack s) (d_epoch (n_disk s))) as [L|L]; [|discriminate E].
    injection E as <-.
    assert (FR : forall o, In o done -> o_epoch o <> d_epoch (n_disk s)).
    { intros o Ho. assert (In o (d_log (n_disk s))) as Hl by (rewrite I4; apply in_or_app; left; exact Ho).
      destruct (I3 o Hl) as (_ & _ & _ & Le). lia. }
    constructor; cbn [n_disk n_pack n_counts n_queue]; try assumption.
    + intros x Hx. destruct (I3 x Hx) as (P1 & P2 & P3 & P4). repeat split; try assumption. lia.
    + intros a. unfold in_epoch. rewrite filter_none; [reflexivity|].
      intros x Hx. apply N.eqb_neq, FR, Hx.
    + intros o [].
    + left. split; [reflexivity|]. intros o Ho Eo. exfalso. apply (FR o Ho Eo).
  - cbn [step] in E. destruct (restart_ok _ _ I F) as (s2 & done' & r & E2 & I2 & _).
    rewrite E2 in E. injection E as <-. eexists; exact I2.
Qed.

(** executing queued outputs *)
Lemma drain_inv n s done : inv s done -> length (n_queue s) = n ->
  exists s', drain n s = s' /\ inv s' (done ++ n_queue s) /\ n_queue s' = [] /\
    d_log (n_disk s') = d_log (n_disk s) /\ n_pack s' = n_pack s.
Proof.
  revert s done. induction n as [|n IH]; intros s done I L; cbn [drain].
  - exists s. destruct (n_queue s) eqn:Eq; [|discriminate L]. rewrite app_nil_r.
    split; [reflexivity|]. split; [exact I|]. split; [reflexivity|]. split; reflexivity.
  - destruct (exec_next s) as [s1|] eqn:E.
    + destruct (inv_exec _ _ _ I E) as (o & q & Eq & Eq1 & I1).
      destruct (IH s1 _ I1) as (s' & E' & I' & Q' & L' & P').
      { rewrite Eq1. rewrite Eq in L. cbn in L. lia. }
      exists s'. split; [exact E'|]. split.
      * rewrite Eq, Eq1 in *. rewrite <- app_assoc in I'. exact I'.
      * repeat split; try assumption.
        -- rewrite L'. unfold exec_next in E. rewrite Eq in E. unfold execute in E.
           destruct (produces_block o); injection E as <-; reflexivity.
        -- rewrite P'. unfold exec_next in E. rewrite Eq in E. unfold execute in E.
           destruct (produces_block o); injection E as <-; reflexivity.
    + unfold exec_next in E. destruct (n_queue s) eqn:Eq; [discriminate L|].
      destruct (execute _ _ _) in E. discriminate E.
Qed.

(** executing [l] in order: the chain tip and the registry epoch *)
Definition tip_after (t : option out) (l : list out) : option out :=
  fold_left (fun t o => if produces_block o then Some o else t) l t.
Definition closings (l : list out) : N := N.of_nat (length (filter o_close l)).
Lemma drain_disk n s : length (n_queue s) = n ->
  d_tip (n_disk (drain n s)) = tip_after (d_tip (n_disk s)) (n_queue s) /\
  d_epoch (n_disk (drain n s)) = d_epoch (n_disk s) + closings (n_queue s) /\
  d_log (n_disk (drain n s)) = d_log (n_disk s) /\ d_hint (n_disk (drain n s)) = d_hint (n_disk s).
Proof.
  revert s. induction n as [|n IH]; intros s L; cbn [drain].
  - destruct (n_queue s); [|discriminate L]. cbn. repeat split; lia.
  - unfold exec_next. destruct (n_queue s) as [|o q] eqn:Eq; [discriminate L|].
    destruct (execute (n_disk s) (n_counts s) o) as [d c] eqn:Ex.
    specialize (IH {| n_disk := d; n_pack := n_pack s; n_counts := c; n_queue := q |}).
    cbn [n_queue n_disk] in IH. destruct IH as (A & B & C & D); [cbn in L; lia|].
    rewrite A, B, C, D. unfold execute in Ex.
    unfold tip_after, closings. cbn [fold_left filter].
    destruct (produces_block o) eqn:PB; injection Ex as <- <-;
      cbn [d_tip d_epoch d_log d_hint].
    + destruct (o_close o); cbn [length]; repeat split; lia.
    + unfold produces_block in PB. apply orb_false_iff in PB as [_ ->]. repeat split; lia.
Qed.
Lemma tip_after_skip t r q : Forall (fun o => produces_block o = false) r ->
  tip_after t (r ++ q) = tip_after t q.
Proof.
  intros H. unfold tip_after. rewrite fold_left_app. f_equal.
  induction H as [|o r Ho H IH]; cbn [fold_left]; [reflexivity|]. rewrite Ho. exact IH.
Qed.
Lemma closings_skip r q : Forall (fun o => produces_block o = false) r ->
  closings (r ++ q) = closings q.
Proof.
  intros H. unfold closings. rewrite filter_app, app_length.
  rewrite (filter_none o_close r); [reflexivity|].
  intros x Hx. rewrite Forall_forall in H. specialize (H x Hx).
  unfold produces_block in H. apply orb_false_iff in H. apply H.
Qed.
