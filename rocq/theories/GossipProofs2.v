(* No honest signature is throttled, and enough of them reach the quorum. *)
From Verif Require Import Util GossipModel GossipSpec GossipProofs.

Section Env.
Variable E : genv.
Variables (B NS : list N) (res : N -> N).

Lemma at_most_one (l : tallies) (d : N) (f : N * tally -> bool) :
  NoDup (map fst l) -> (forall e, In e l -> f e = true -> fst e = d) -> length (filter f l) <= 1.
Proof.
  induction l as [|[d' t'] l IH]; simpl; intros Hn H; [lia|].
  inversion Hn as [|? ? H1 H2]; subst.
  destruct (f (d', t')) eqn:Ef; [|apply IH; auto].
  assert (Hd : d' = d) by (apply (H (d', t')); auto). subst d'.
  assert (filter f l = []) as ->; [|simpl; lia].
  assert (Hx : forall e, In e l -> f e = true -> fst e = d) by auto. clear IH H Hn H2 Ef.
  induction l as [|e l IH]; simpl; auto. simpl in H1.
  destruct (f e) eqn:Ee; [exfalso; apply H1; left; apply Hx; simpl; auto|].
  apply IH; [intros H; apply H1; auto|]. intros e' H'. apply Hx. simpl; auto.
Qed.

Lemma honest_held all evs s k n : genv_ok E ->
  honest_discipline E B NS res all -> incl evs all -> ginv E evs s -> numbered E evs (g_tal s) -> ~ In k B ->
  held (g_tal s) k n <= 1.
Proof.
  intros OK Hd Hi Hg Hn Hk. unfold held. apply (at_most_one _ (res n)); [apply (gi_nd _ _ _ Hg)|].
  intros [d t] Hin Hf. cbn [fst snd] in *. apply andb_true_iff in Hf as [F1 F2].
  apply N.eqb_eq in F1. apply memN_In in F2.
  destruct (gi_sig _ _ _ Hg d t Hin) as [_ H]. destruct (H k F2) as (m & M1 & M2 & M3 & M4 & _).
  destruct (Hd m (Hi _ M1)) as [_ D].
  { rewrite M2, M3. exact M4. }
  destruct D as [D|D]; [rewrite M3 in D; tauto|].
  destruct (Hn d t Hin) as (m' & _ & N2 & N3). rewrite <- M2 in N2. unfold gm_dig in N2.
  apply (go_dig E OK) in N2 as (_ & _ & N2 & _). rewrite <- M2, D, <- N2, N3, F1. auto.
Qed.

(* what the run has counted so far, and which of it is already on its way out *)
Definition out_of (s : gstate) (fx : list geff) (d : N) : Prop :=
  exists m, gm_dig E m = d /\ (In (TBehind m) (g_tasks s) \/ In (GPublish m) fx \/ In (GBehind m) fx).

Record cinv (s : gstate) (fx : list geff) : Prop := {
  ci_in : forall m, In (GCounted m) fx -> exists t, In (gm_dig E m, t) (g_tal s) /\ In (gm_key m) (t_signers t);
  ci_out : forall m t, In (gm_dig E m, t) (g_tal s) -> length (ge_com E (gm_epoch m)) / 3 + 1 <= length (t_signers t) ->
             out_of s fx (gm_dig E m) }.

Lemma drop_nth_keep {A} i (l : list A) x y : nth_error l i = Some y -> In x l -> x = y \/ In x (drop_nth i l).
Proof.
  revert i; induction l as [|a l IH]; intros [|i]; simpl; intros H Hin; try tauto; try discriminate.
  - injection H as ->. destruct Hin; auto.
  - destruct Hin as [->|Hin]; [auto|]. destruct (IH _ H Hin); auto.
Qed.

Lemma tget_uniq (l : tallies) d t : NoDup (map fst l) -> In (d, t) l -> tget l d = Some t.
Proof.
  induction l as [|[d' t'] l IH]; simpl; intros Hn Hin; [tauto|]. inversion Hn; subst.
  destruct Hin as [H|Hin].
  - injection H as -> ->. rewrite N.eqb_refl. auto.
  - destruct (N.eqb d' d) eqn:Ed; [|auto]. apply N.eqb_eq in Ed. subst d'. exfalso. apply H1.
    apply in_map_iff. exists (d, t). auto.
Qed.

(* one section under the lock, without eviction *)
Lemma tally_section_count l m fx l2 full :
  genv_ok E -> NoDup (map fst l) -> (forall d, ~ In (GEvict d) fx) -> tally_section E l m = (fx, l2, full) ->
  (forall m', In (GCounted m') fx -> m' = m) /\
  (In (GCounted m) fx -> exists t, In (gm_dig E m, t) l2 /\ In (gm_key m) (t_signers t)) /\
  (forall m' t, In (gm_dig E m', t) l2 -> length (ge_com E (gm_epoch m')) / 3 + 1 <= length (t_signers t) ->
     (exists t0, In (gm_dig E m', t0) l /\ t_signers t0 = t_signers t) \/ (full = true /\ gm_dig E m' = gm_dig E m)).
Proof.
  intros OK Hn. unfold tally_section; cbv zeta. intros He.
  destruct (negb (thas l (gm_dig E m)) && _).
  { intros H; injection H as <- <- <-. split; [simpl; tauto|]. split; [simpl; tauto|]. eauto. }
  destruct (_ && negb (thas l (gm_dig E m))) eqn:Ec.
  { destruct (oldest l) as [[v q]|] eqn:Eo.
    - intros H; injection H as <- <- <-. exfalso. apply (He v). simpl; auto.
    - destruct l as [|[d0 t0] l0].
      + exfalso. apply andb_true_iff in Ec as [Ec _]. apply Nat.leb_le in Ec. unfold MAX_CONSENSUS_CERTS in Ec. simpl in Ec. lia.
      + destruct (oldest_some ((d0, t0) :: l0)) as (v & q & Ho); [discriminate|]. congruence. }
  clear Ec. intros H; injection H as <- <- <-.
  split; [intros m' [H|[]]; congruence|].
  assert (Hnd : NoDup (map fst (bump l (gm_dig E m) (next_seq l) (gm_number m) (gm_key m)))) by (apply bump_NoDup; auto).
  split.
  - intros _. unfold bump. destruct (thas l (gm_dig E m)) eqn:Eh.
    + apply thas_In in Eh. apply in_map_iff in Eh as [[d t] [Hd Hin]]. cbn [fst] in Hd. subst d.
      eexists. split; [apply in_map_iff; exists (gm_dig E m, t); split; [cbn [fst snd]; rewrite N.eqb_refl; reflexivity|auto]|].
      cbn [t_signers]. destruct (memN (gm_key m) (t_signers t)) eqn:Em; [apply memN_In; auto|apply in_app_iff; simpl; auto].
    + eexists. split; [apply in_app_iff; right; left; reflexivity|]. simpl; auto.
  - intros m' t Hin Hlen.
    destruct (N.eq_dec (gm_dig E m') (gm_dig E m)) as [Hd|Hd].
    + right. split; auto. apply Nat.leb_le. unfold sigs_of. rewrite Hd in Hin.
      rewrite (tget_uniq _ _ _ Hnd Hin). unfold gm_dig in Hd. apply (go_dig E OK) in Hd as (<- & _). exact Hlen.
    + left. exists t. split; auto. apply bump_In in Hin as [[_ Hin]|[[t1 [_ H1]]|[_ H1]]]; [auto| |]; congruence.
Qed.

Lemma gstep_cinv evs s e fx0 fx s' :
  genv_ok E -> ginv E evs s -> cinv s fx0 -> (forall d, ~ In (GEvict d) fx) -> ~ In GCleared fx ->
  (forall d t, In (d, t) (g_tal s) -> exists t', In (d, t') (g_tal s') /\ incl (t_signers t) (t_signers t')) ->
  gstep E s e = (fx, s') -> cinv s' (fx0 ++ fx).
Proof.
  intros OK Hg [C1 C2] He Hc Hkeep Hstep.
  assert (Hfx0 : forall d, (exists m, gm_dig E m = d /\ (In (TBehind m) (g_tasks s) \/ In (GPublish m) fx0 \/ In (GBehind m) fx0)) ->
            (forall m, In (TBehind m) (g_tasks s) -> In (TBehind m) (g_tasks s') \/ In (GPublish m) fx \/ In (GBehind m) fx) ->
            out_of s' (fx0 ++ fx) d).
  { intros d (m & M1 & M2) Hb. exists m. split; auto. rewrite !in_app_iff. destruct M2 as [M2|[M2|M2]]; [|tauto|tauto].
    destruct (Hb m M2) as [H|[H|H]]; tauto. }
  assert (Hb : forall m, In (TBehind m) (g_tasks s) -> In (TBehind m) (g_tasks s') \/ In (GPublish m) fx \/ In (GBehind m) fx).
  { intros m Hm. destruct e as [m1|i known behind|e n h]; cbn [gstep] in Hstep.
    - injection Hstep as <- <-. left. apply in_app_iff. auto.
    - destruct (nth_error (g_tasks s) i) as [t|] eqn:En; [|injection Hstep as <- <-; auto].
      destruct (drop_nth_keep _ _ _ _ En Hm) as [<-|Hr].
      + cbn [run_task] in Hstep. destruct behind; injection Hstep as <- <-; simpl; auto.
      + left. destruct t as [m1|m1|m1|m1|]; cbn [run_task] in Hstep.
        * destruct (_ || _); injection Hstep as <- <-; cbn [g_tasks]; rewrite ?in_app_iff; auto.
        * repeat (match type of Hstep with context[if ?b then _ else _] => destruct b end); injection Hstep as <- <-; cbn [g_tasks]; rewrite ?in_app_iff; auto.
        * destruct (tally_section E (g_tal s) m1) as [[fx1 l2] full]. injection Hstep as <- <-. cbn [g_tasks]. destruct full; rewrite ?in_app_iff; auto.
        * destruct behind; injection Hstep as <- <-; cbn [g_tasks]; rewrite ?in_app_iff; auto.
        * injection Hstep as <- <-. auto.
    - injection Hstep as <- <-. auto. }
  assert (Hcount : forall m, In (GCounted m) fx0 -> exists t, In (gm_dig E m, t) (g_tal s') /\ In (gm_key m) (t_signers t)).
  { intros m Hm. destruct (C1 m Hm) as (t & T1 & T2). destruct (Hkeep _ _ T1) as (t' & T3 & T4). exists t'. auto. }
  (* steps that leave the map alone *)
  assert (Hsame : g_tal s' = g_tal s -> (forall m, ~ In (GCounted m) fx) -> cinv s' (fx0 ++ fx)).
  { intros Ht Hno. constructor.
    - intros m Hm. apply in_app_iff in Hm as [Hm|Hm]; [auto|]. exfalso. eapply Hno; eauto.
    - intros m t Hin Hlen. rewrite Ht in Hin. apply Hfx0; auto. exact (C2 m t Hin Hlen). }
  destruct e as [m1|i known behind|e n h]; cbn [gstep] in Hstep.
  - injection Hstep as <- <-. apply Hsame; auto.
  - destruct (nth_error (g_tasks s) i) as [t|] eqn:En; [|injection Hstep as <- <-; apply Hsame; auto].
    destruct t as [m1|m1|m1|m1|]; cbn [run_task] in Hstep.
    + destruct (_ || _); injection Hstep as <- <-; apply Hsame; auto.
    + repeat (match type of Hstep with context[if ?b then _ else _] => destruct b end); injection Hstep as <- <-; apply Hsame; auto;
        intros m [H|[]]; discriminate.
    + destruct (tally_section E (g_tal s) m1) as [[fx1 l2] full] eqn:Et. injection Hstep as <- <-.
      destruct (tally_section_count _ _ _ _ _ OK (gi_nd _ _ _ Hg) He Et) as (S1 & S2 & S3).
      constructor.
      * intros m Hm. apply in_app_iff in Hm as [Hm|Hm]; [auto|]. assert (m = m1) as -> by auto. cbn [g_tal]. auto.
      * cbn [g_tal]. intros m t Hin Hlen. destruct (S3 m t Hin Hlen) as [(t0 & H1 & H2)|[-> H2]].
        -- apply Hfx0; auto. rewrite <- H2 in Hlen. exact (C2 m t0 H1 Hlen).
        -- exists m1. split; auto. left. cbn [g_tasks]. apply in_app_iff. simpl; auto.
    + destruct behind; injection Hstep as <- <-; apply Hsame; auto; intros m [H|[]]; discriminate.
    + injection Hstep as <- <-. exfalso. apply Hc. simpl; auto.
  - injection Hstep as <- <-. apply Hsame; auto.
Qed.

Lemma grun_cinv evs2 : forall all evs1 s fx0 fx s',
  genv_ok E -> NoDup B ->
  honest_discipline E B NS res all -> incl (evs1 ++ evs2) all ->
  (forall ep, length NS * (2 * length B + 1) <= Nat.max (length (ge_com E ep)) MAX_CONSENSUS_CERTS) ->
  ginv E evs1 s -> crowd B NS res (g_tal s) -> numbered E evs1 (g_tal s) -> cinv s fx0 ->
  grun E s evs2 = (fx, s') -> ~ In GCleared fx -> cinv s' (fx0 ++ fx) /\ ginv E (evs1 ++ evs2) s'.
Proof.
  induction evs2 as [|e evs2 IH]; intros all evs1 s fx0 fx s' OK HB Hd Hall Hcap Hi Hc Hn Hci; cbn [grun].
  - intros H; injection H as <- <-. rewrite !app_nil_r. auto.
  - destruct (gstep E s e) as [fx1 s1] eqn:E1. destruct (grun E s1 evs2) as [fx2 s2] eqn:E2.
    intros H; injection H as <- <-. intros Hncl.
    assert (N1 : ~ In GCleared fx1) by (intros H; apply Hncl; apply in_app_iff; auto).
    assert (N2 : ~ In GCleared fx2) by (intros H; apply Hncl; apply in_app_iff; auto).
    assert (Hall1 : incl (evs1 ++ [e]) all).
    { intros x Hx. apply Hall. apply in_app_iff in Hx as [Hx|[<-|[]]]; apply in_app_iff; simpl; auto. }
    destruct (gstep_crowd E OK B NS res all _ _ _ _ _ Hd Hall1 Hcap Hi Hc Hn E1) as (R1 & R2 & R3 & R4).
    destruct (gstep_inv E _ _ _ _ _ Hi E1) as [I1 _].
    pose proof (gstep_cinv _ _ _ _ _ _ OK Hi Hci R3 N1 (R4 N1) E1) as Hci1.
    rewrite app_assoc.
    assert (Happ : evs1 ++ e :: evs2 = (evs1 ++ [e]) ++ evs2) by (rewrite <- app_assoc; reflexivity). rewrite Happ in *.
    destruct (IH all (evs1 ++ [e]) s1 (fx0 ++ fx1) fx2 s2 OK HB Hd) as [Q1 Q2]; auto.
Qed.

(* the limit on creating tallies holds with evictions too *)
Lemma filter_filter_le {A} (f g : A -> bool) l : length (filter f (filter g l)) <= length (filter f l).
Proof. induction l as [|x l IH]; simpl; [auto|]. destruct (g x); simpl; destruct (f x); simpl; lia. Qed.

Lemma crowd_tdel l v : crowd B NS res l -> crowd B NS res (tdel l v).
Proof.
  intros [C1 C2 C3]. constructor.
  - apply tdel_NoDup; auto.
  - intros d t Hin. apply tdel_In in Hin as [Hin _]. auto.
  - intros k n. etransitivity; [apply filter_filter_le|apply C3].
Qed.
Lemma thas_tdel l d v : thas l d = false -> thas (tdel l v) d = false.
Proof.
  intros H. destruct (thas (tdel l v) d) eqn:Eh; auto. apply thas_In in Eh.
  apply in_map_iff in Eh as [e [He Hin]]. apply tdel_In in Hin as [Hin _].
  assert (thas l d = true); [|congruence]. apply thas_In, in_map_iff. eauto.
Qed.

Lemma tally_section_crowd_any l m fx l2 full :
  crowd B NS res l -> In (gm_number m) NS -> (In (gm_key m) B \/ gm_dig E m = res (gm_number m)) ->
  (forall d t, In (d, t) l -> d = gm_dig E m -> t_number t = gm_number m) ->
  tally_section E l m = (fx, l2, full) ->
  crowd B NS res l2 /\
  (forall d t, In (d, t) l2 -> (exists t0, In (d, t0) l /\ t_number t = t_number t0) \/ (d = gm_dig E m /\ t_number t = gm_number m)).
Proof.
  intros Hc Hn Hk Hsame. unfold tally_section; cbv zeta.
  destruct (negb (thas l (gm_dig E m)) && (MAX_TALLIES_PER_SIGNER_PER_NUMBER <=? held l (gm_key m) (gm_number m))) eqn:Elim.
  { intros H; injection H as <- <- <-. split; eauto. }
  assert (Hheld : thas l (gm_dig E m) = false -> held l (gm_key m) (gm_number m) < 2).
  { intros Hh. rewrite Hh in Elim. cbn [negb andb] in Elim. apply Nat.leb_gt in Elim. exact Elim. }
  assert (Hgo : forall l1 q, crowd B NS res l1 -> (forall e, In e l1 -> In e l) ->
      (thas l1 (gm_dig E m) = false -> held l1 (gm_key m) (gm_number m) < 2) ->
      crowd B NS res (bump l1 (gm_dig E m) q (gm_number m) (gm_key m)) /\
      (forall d t, In (d, t) (bump l1 (gm_dig E m) q (gm_number m) (gm_key m)) ->
         (exists t0, In (d, t0) l /\ t_number t = t_number t0) \/ (d = gm_dig E m /\ t_number t = gm_number m))).
  { intros l1 q H1 H2 H3. split.
    - apply crowd_bump; auto. intros d t Hin. apply Hsame. auto.
    - intros d t Hin. apply bump_In in Hin as [[_ Hin]|[[t0 [_ He]]|[_ He]]]; [left; eauto| |];
        injection He as -> ->; right; auto. }
  destruct (_ && negb (thas l (gm_dig E m))) eqn:Ec.
  - apply andb_true_iff in Ec as [_ Ec]. apply negb_true_iff in Ec.
    destruct (oldest l) as [[v q]|]; intros H; injection H as <- <- <-; apply Hgo; auto.
    + apply crowd_tdel; auto.
    + intros e He. apply tdel_In in He. tauto.
    + intros _. eapply Nat.le_lt_trans; [|apply Hheld; auto]. apply filter_filter_le.
  - intros H; injection H as <- <- <-. apply Hgo; auto.
Qed.

Lemma grun_crowd_any evs2 : forall all evs1 s fx s',
  genv_ok E -> honest_discipline E B NS res all -> incl (evs1 ++ evs2) all ->
  ginv E evs1 s -> crowd B NS res (g_tal s) -> numbered E evs1 (g_tal s) -> grun E s evs2 = (fx, s') ->
  crowd B NS res (g_tal s') /\ numbered E (evs1 ++ evs2) (g_tal s').
Proof.
  induction evs2 as [|e evs2 IH]; intros all evs1 s fx s' OK Hd Hall Hi Hc Hn; cbn [grun].
  - intros H; injection H as <- <-. rewrite app_nil_r. auto.
  - destruct (gstep E s e) as [fx1 s1] eqn:E1. destruct (grun E s1 evs2) as [fx2 s2] eqn:E2.
    intros H; injection H as <- <-.
    assert (Happ : evs1 ++ e :: evs2 = (evs1 ++ [e]) ++ evs2) by (rewrite <- app_assoc; reflexivity). rewrite Happ in *.
    destruct (gstep_inv E _ _ _ _ _ Hi E1) as [I1 _].
    assert (Hn' : numbered E (evs1 ++ [e]) (g_tal s)).
    { intros d t Hin. destruct (Hn d t Hin) as (m & H1 & H2). exists m. split; auto. apply in_app_iff; auto. }
    eapply (IH all (evs1 ++ [e])); [auto|eauto|auto|eauto| | |exact E2]; clear IH E2.
    + destruct e as [m1|i known behind|e n h]; cbn [gstep] in E1; [injection E1 as <- <-; auto| |injection E1 as <- <-; auto].
      destruct (nth_error (g_tasks s) i) as [t|] eqn:En; [|injection E1 as <- <-; auto].
      assert (Ht : In t (g_tasks s)) by (eapply nth_error_In; eauto).
      destruct t as [m|m|m|m|]; cbn [run_task] in E1.
      * destruct (_ || _); injection E1 as <- <-; auto.
      * repeat (match type of E1 with context[if ?b then _ else _] => destruct b end); injection E1 as <- <-; auto.
      * destruct (tally_section E (g_tal s) m) as [[fx0 l2] full] eqn:Et. injection E1 as <- <-. cbn [g_tal].
        pose proof (gi_tally _ _ _ Hi m Ht) as (m' & B1 & B2 & B3 & B4 & B5).
        destruct (Hd m') as [D1 D2]; [apply Hall; rewrite in_app_iff; left; apply in_app_iff; left; exact B1|rewrite B2, B3; exact B4|].
        assert (HN : gm_number m' = gm_number m) by (unfold gm_dig in B2; apply (go_dig E OK) in B2 as (_ & _ & HN & _); exact HN).
        rewrite HN, B3, B2 in D2. rewrite HN in D1.
        apply (tally_section_crowd_any _ _ _ _ _ Hc D1 D2 (numbered_same E OK _ _ m Hn) Et).
      * destruct behind; injection E1 as <- <-; auto.
      * injection E1 as <- <-. cbn [g_tal]. constructor; simpl; try tauto; try constructor. intros; lia.
    + destruct e as [m1|i known behind|e n h]; cbn [gstep] in E1; [injection E1 as <- <-; auto| |injection E1 as <- <-; auto].
      destruct (nth_error (g_tasks s) i) as [t|] eqn:En; [|injection E1 as <- <-; auto].
      assert (Ht : In t (g_tasks s)) by (eapply nth_error_In; eauto).
      destruct t as [m|m|m|m|]; cbn [run_task] in E1.
      * destruct (_ || _); injection E1 as <- <-; auto.
      * repeat (match type of E1 with context[if ?b then _ else _] => destruct b end); injection E1 as <- <-; auto.
      * destruct (tally_section E (g_tal s) m) as [[fx0 l2] full] eqn:Et. injection E1 as <- <-. cbn [g_tal].
        pose proof (gi_tally _ _ _ Hi m Ht) as (m' & B1 & B2 & B3 & B4 & B5).
        destruct (Hd m') as [D1 D2]; [apply Hall; rewrite in_app_iff; left; apply in_app_iff; left; exact B1|rewrite B2, B3; exact B4|].
        assert (HN : gm_number m' = gm_number m) by (unfold gm_dig in B2; apply (go_dig E OK) in B2 as (_ & _ & HN & _); exact HN).
        rewrite HN, B3, B2 in D2. rewrite HN in D1.
        destruct (tally_section_crowd_any _ _ _ _ _ Hc D1 D2 (numbered_same E OK _ _ m Hn) Et) as [_ R3].
        intros d t Hin. destruct (R3 d t Hin) as [[t0 [H1 H2]]|[-> H2]].
        -- destruct (Hn' d t0 H1) as (m0 & M1 & M2 & M3). exists m0. split; auto. split; auto. congruence.
        -- exists m. split; [apply in_app_iff; left; exact (gi_task _ _ _ Hi (TTally m) m Ht eq_refl)|]. auto.
      * destruct behind; injection E1 as <- <-; auto.
      * injection E1 as <- <-. intros d t [].
Qed.

Lemma init_crowd pub : crowd B NS res (g_tal (g_init pub)).
Proof. constructor; simpl; try tauto; try constructor. intros; lia. Qed.
End Env.
