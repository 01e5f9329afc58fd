From Verif Require Import Util GossipModel GossipSpec.

Lemma filter_length_le {A} (f : A -> bool) l : length (filter f l) <= length l.
Proof. induction l as [|x l IH]; simpl; [auto|]. destruct (f x); simpl; lia. Qed.

Lemma tget_In l d t : tget l d = Some t -> In (d, t) l.
Proof.
  induction l as [|[d' t'] l IH]; simpl; [discriminate|].
  destruct (N.eqb d' d) eqn:E; intros H; [|right; auto].
  apply N.eqb_eq in E. injection H as ->. subst; auto.
Qed.
Lemma thas_In l d : thas l d = true <-> In d (map fst l).
Proof.
  unfold thas. induction l as [|[d' t'] l IH]; simpl; [split; [discriminate|tauto]|].
  destruct (N.eqb d' d) eqn:E.
  - apply N.eqb_eq in E. split; auto.
  - apply N.eqb_neq in E. rewrite IH. split; [auto|intros [H|H]; [congruence|auto]].
Qed.
Lemma tdel_In l d e : In e (tdel l d) <-> In e l /\ fst e <> d.
Proof. unfold tdel. rewrite filter_In, negb_true_iff, N.eqb_neq. tauto. Qed.
Lemma tdel_len l d : length (tdel l d) <= length l.
Proof. apply filter_length_le. Qed.
Lemma tdel_lt l d : In d (map fst l) -> length (tdel l d) < length l.
Proof.
  unfold tdel. induction l as [|[d' t'] l IH]; [simpl; tauto|].
  cbn [map fst In filter length]. intros H. destruct (N.eqb d' d) eqn:E; cbn [negb length].
  - pose proof (filter_length_le (fun e : N * tally => negb (N.eqb (fst e) d)) l). lia.
  - apply N.eqb_neq in E. destruct H as [H|H]; [congruence|]. specialize (IH H). lia.
Qed.
Lemma tdel_NoDup l d : NoDup (map fst l) -> NoDup (map fst (tdel l d)).
Proof.
  induction l as [|[d' t'] l IH]; simpl; intros H; [constructor|].
  inversion H; subst. destruct (N.eqb d' d); simpl; auto. constructor; auto.
  intros Hin. apply in_map_iff in Hin as [e [He Hin]]. apply tdel_In in Hin as [Hin _].
  apply H2. apply in_map_iff. eauto.
Qed.
Lemma oldest_In l v q : oldest l = Some (v, q) -> In v (map fst l).
Proof.
  revert v q; induction l as [|[d t] l IH]; simpl; intros v q; [discriminate|].
  destruct (oldest l) as [[d' q']|].
  - destruct (t_seq t <=? q'); intros H; injection H as <- <-; [auto|right; eapply IH; eauto].
  - intros H; injection H as <- <-; auto.
Qed.
Lemma oldest_some l : l <> [] -> exists v q, oldest l = Some (v, q).
Proof.
  destruct l as [|[d t] l]; [congruence|]. intros _. simpl. destruct (oldest l) as [[d' q']|]; [|eauto].
  destruct (t_seq t <=? q'); eauto.
Qed.

(* ---------- one entry of the map after bump ---------- *)
Lemma bump_keys l d q n k : thas l d = true -> map fst (bump l d q n k) = map fst l.
Proof.
  intros H. unfold bump. rewrite H. rewrite map_map. apply map_ext_in. intros [d' t'] _. simpl.
  destruct (N.eqb d' d) eqn:E; auto. apply N.eqb_eq in E. auto.
Qed.
Lemma bump_In l d q n k e : In e (bump l d q n k) ->
  (fst e <> d /\ In e l) \/
  (exists t, In (d, t) l /\ e = (d, mk_tally q n (if memN k (t_signers t) then t_signers t else t_signers t ++ [k]))) \/
  (thas l d = false /\ e = (d, mk_tally q n [k])).
Proof.
  unfold bump. destruct (thas l d) eqn:Eh.
  - intros H. apply in_map_iff in H as [[d' t'] [<- Hin]]. simpl. destruct (N.eqb d' d) eqn:E.
    + apply N.eqb_eq in E; subst. right; left. eauto.
    + apply N.eqb_neq in E. left. auto.
  - intros H. apply in_app_iff in H as [H|[<-|[]]]; [|right; right; auto].
    left. split; auto. intros Hf. assert (thas l d = true); [|congruence].
    apply thas_In. apply in_map_iff. eauto.
Qed.
Lemma bump_len l d q n k : length (bump l d q n k) = if thas l d then length l else S (length l).
Proof. unfold bump. destruct (thas l d); [apply map_length|]. rewrite app_length. simpl. lia. Qed.
Lemma bump_NoDup l d q n k : NoDup (map fst l) -> NoDup (map fst (bump l d q n k)).
Proof.
  intros H. destruct (thas l d) eqn:E; [rewrite bump_keys; auto|].
  unfold bump. rewrite E, map_app. simpl. apply NoDup_app_intro; auto.
  - constructor; [simpl; tauto|constructor].
  - intros x Hx [<-|[]]. apply thas_In in Hx. congruence.
Qed.

Section Env.
Variable E : genv.
Hypothesis OK : genv_ok E.

(* the signer's message as the history has it *)
Definition backed (evs : list gev) (d k : N) : Prop :=
  exists m, arrived evs m /\ gm_dig E m = d /\ gm_key m = k /\ ge_vrfy E d k (gm_sig m) = true /\
            In k (ge_com E (gm_epoch m)).

Definition task_msg (t : gtask) : option gmsg :=
  match t with TRead m | TCheck m | TTally m | TBehind m => Some m | TClear => None end.

(* what every published message has behind it *)
Definition pub_ok (evs : list gev) (m : gmsg) : Prop :=
  exists ks, NoDup ks /\ length (ge_com E (gm_epoch m)) / 3 + 1 <= length ks /\ forall k, In k ks -> backed evs (gm_dig E m) k.

Definition task_ok (evs : list gev) (t : gtask) : Prop :=
  (forall m, task_msg t = Some m -> arrived evs m) /\
  (forall m, t = TTally m -> backed evs (gm_dig E m) (gm_key m)) /\
  (forall m, t = TBehind m -> pub_ok evs m).

Record ginv (evs : list gev) (s : gstate) : Prop := {
  gi_nd : NoDup (map fst (g_tal s));
  gi_sig : forall d t, In (d, t) (g_tal s) -> NoDup (t_signers t) /\ forall k, In k (t_signers t) -> backed evs d k;
  gi_tasks : forall t, In t (g_tasks s) -> task_ok evs t }.

Lemma gi_task evs s : ginv evs s -> forall t m, In t (g_tasks s) -> task_msg t = Some m -> arrived evs m.
Proof. intros H t m Ht. apply (gi_tasks _ _ H t Ht). Qed.
Lemma gi_tally evs s : ginv evs s -> forall m, In (TTally m) (g_tasks s) -> backed evs (gm_dig E m) (gm_key m).
Proof. intros H m Ht. apply (gi_tasks _ _ H _ Ht). auto. Qed.

Lemma backed_mono evs evs' d k : incl evs evs' -> backed evs d k -> backed evs' d k.
Proof. intros Hi (m & H1 & H2). exists m. split; auto. apply Hi. auto. Qed.

Lemma drop_nth_In {A} n (l : list A) x : In x (drop_nth n l) -> In x l.
Proof. revert n; induction l as [|y l IH]; intros [|n]; simpl; auto. intros [H|H]; eauto. Qed.

Lemma tally_section_inv evs l m fx l2 full :
  NoDup (map fst l) -> (forall d t, In (d, t) l -> NoDup (t_signers t) /\ forall k, In k (t_signers t) -> backed evs d k) ->
  backed evs (gm_dig E m) (gm_key m) ->
  tally_section E l m = (fx, l2, full) ->
  NoDup (map fst l2) /\ (forall d t, In (d, t) l2 -> NoDup (t_signers t) /\ forall k, In k (t_signers t) -> backed evs d k) /\
  (full = true -> exists ks, NoDup ks /\ length (ge_com E (gm_epoch m)) / 3 + 1 <= length ks /\ forall k, In k ks -> backed evs (gm_dig E m) k) /\
  (forall m', ~ In (GPublish m') fx).
Proof.
  intros Hn Hs Hb. unfold tally_section; cbv zeta.
  destruct (negb (thas l (gm_dig E m)) && (MAX_TALLIES_PER_SIGNER_PER_NUMBER <=? held l (gm_key m) (gm_number m))).
  { intros H; injection H as <- <- <-. split; auto. split; auto. split; [discriminate|]. simpl; tauto. }
  set (cap := Nat.max (length (ge_com E (gm_epoch m))) MAX_CONSENSUS_CERTS).
  match goal with |- context[if (cap <=? length l) && negb (thas l (gm_dig E m)) then ?a else ?b] =>
    set (pr := if (cap <=? length l) && negb (thas l (gm_dig E m)) then a else b) end.
  assert (Hl1 : exists fx1 l1, pr = (fx1, l1) /\ NoDup (map fst l1) /\ (forall e, In e l1 -> In e l) /\ (forall m', ~ In (GPublish m') fx1)).
  { subst pr. destruct ((cap <=? length l) && negb (thas l (gm_dig E m))).
    - destruct (oldest l) as [[v q]|].
      + exists [GEvict v], (tdel l v). split; auto. split; [apply tdel_NoDup; auto|]. split; [intros e H; apply tdel_In in H; tauto|].
        intros m' [H|[]]; discriminate.
      + exists [], l. auto.
    - exists [], l. auto. }
  destruct Hl1 as (fx1 & l1 & -> & N1 & N2 & N3).
  intros H. injection H as <- <- <-.
  assert (Hs2 : forall d t, In (d, t) (bump l1 (gm_dig E m) (next_seq l) (gm_number m) (gm_key m)) ->
              NoDup (t_signers t) /\ forall k, In k (t_signers t) -> backed evs d k).
  { intros d t Hin. apply bump_In in Hin as [[_ Hin]|[[t0 [Hin He]]|[_ He]]].
    - apply Hs. auto.
    - injection He as -> ->. cbn [t_signers]. destruct (Hs _ _ (N2 _ Hin)) as [A1 A2].
      destruct (memN (gm_key m) (t_signers t0)) eqn:Em; [auto|]. split.
      + apply NoDup_app_intro; auto; [constructor; [simpl; tauto|constructor]|].
        intros x Hx [<-|[]]. apply memN_nIn in Em. auto.
      + intros k Hk. apply in_app_iff in Hk as [Hk|[<-|[]]]; auto.
    - injection He as -> ->. cbn [t_signers]. split; [constructor; [simpl; tauto|constructor]|].
      intros k [<-|[]]. auto. }
  split; [apply bump_NoDup; auto|]. split; [exact Hs2|]. split.
  - intros Hfull. apply Nat.leb_le in Hfull. unfold sigs_of in Hfull.
    destruct (tget _ (gm_dig E m)) as [t|] eqn:Et; [|lia].
    apply tget_In in Et. destruct (Hs2 _ _ Et) as [A1 A2]. exists (t_signers t). auto.
  - intros m' Hin. apply in_app_iff in Hin as [Hin|[Hin|[]]]; [eapply N3; eauto|discriminate].
Qed.

Lemma pub_ok_mono evs evs' m : incl evs evs' -> pub_ok evs m -> pub_ok evs' m.
Proof. intros Hi (ks & H1 & H2 & H3). exists ks. split; auto. split; auto. intros k Hk. eapply backed_mono; eauto. Qed.
Lemma task_ok_mono evs evs' t : incl evs evs' -> task_ok evs t -> task_ok evs' t.
Proof.
  intros Hi (H1 & H2 & H3). split; [|split].
  - intros m Hm. apply Hi. apply H1; auto.
  - intros m Hm. eapply backed_mono; eauto.
  - intros m Hm. eapply pub_ok_mono; eauto.
Qed.
Lemma ginv_mono evs evs' s : incl evs evs' -> ginv evs s -> ginv evs' s.
Proof.
  intros Hi [H1 H2 H3]. constructor; auto.
  - intros d t Hin. destruct (H2 d t Hin) as [K1 K2]. split; auto. intros k Hk. eapply backed_mono; eauto.
  - intros t Ht. eapply task_ok_mono; eauto.
Qed.
Lemma inv_tasks evs s tasks pub miss : ginv evs s ->
  (forall t, In t tasks -> In t (g_tasks s) \/ task_ok evs t) -> ginv evs (mk_gstate pub (g_tal s) tasks miss).
Proof. intros [H1 H2 H3] H. constructor; cbn; auto. intros t Ht. destruct (H t Ht); auto. Qed.
Lemma task_ok_read evs m : arrived evs m -> task_ok evs (TRead m).
Proof. intros H. split; [intros m0 H0; injection H0 as <-; auto|]. split; intros m0 H0; discriminate. Qed.
Lemma task_ok_check evs m : arrived evs m -> task_ok evs (TCheck m).
Proof. intros H. split; [intros m0 H0; injection H0 as <-; auto|]. split; intros m0 H0; discriminate. Qed.
Lemma task_ok_tally evs m : arrived evs m -> backed evs (gm_dig E m) (gm_key m) -> task_ok evs (TTally m).
Proof. intros H K. split; [intros m0 H0; injection H0 as <-; auto|]. split; intros m0 H0; [injection H0 as <-; auto|discriminate]. Qed.
Lemma task_ok_behind evs m : arrived evs m -> pub_ok evs m -> task_ok evs (TBehind m).
Proof. intros H K. split; [intros m0 H0; injection H0 as <-; auto|]. split; intros m0 H0; [discriminate|injection H0 as <-; auto]. Qed.
Lemma task_ok_clear evs : task_ok evs TClear.
Proof. split; [intros m0 H0; discriminate|]. split; intros m0 H0; discriminate. Qed.

Lemma gstep_inv evs s e fx s' :
  ginv evs s -> gstep E s e = (fx, s') ->
  ginv (evs ++ [e]) s' /\ (forall m, In (GPublish m) fx -> pub_ok (evs ++ [e]) m).
Proof.
  intros A.
  assert (Hi : incl evs (evs ++ [e])) by (intros x Hx; apply in_app_iff; auto).
  apply (ginv_mono _ _ _ Hi) in A.
  assert (Hlast : In e (evs ++ [e])) by (apply in_app_iff; simpl; auto).
  set (evs' := evs ++ [e]) in *. clearbody evs'. clear Hi evs.
  destruct e as [m|i known behind|e n h]; cbn [gstep].
  - intros H; injection H as <- <-. split; [|simpl; tauto].
    apply inv_tasks; auto. intros t Ht. apply in_app_iff in Ht as [Ht|[<-|[]]]; [auto|]. right. apply task_ok_read. exact Hlast.
  - destruct (nth_error (g_tasks s) i) as [t|] eqn:En.
    2: { intros H; injection H as <- <-. split; [auto|simpl; tauto]. }
    assert (Ht : In t (g_tasks s)) by (eapply nth_error_In; eauto).
    pose proof (gi_tasks _ _ A t Ht) as (T1 & T2 & T3).
    set (rest := drop_nth i (g_tasks s)).
    assert (Hrest : forall x, In x rest -> In x (g_tasks s)) by (intros x; apply drop_nth_In).
    clearbody rest. clear En.
    destruct t as [m|m|m|m|]; cbn [run_task].
    + destruct (N.eqb (gm_hash m) (snd (g_pub s)) || N.leb (gm_number m) (pub_number (g_pub s)));
        intros H; injection H as <- <-; (split; [|simpl; tauto]); apply inv_tasks; auto.
      intros t Hin. apply in_app_iff in Hin as [Hin|[<-|[]]]; [auto|]. right. apply task_ok_check. apply T1; auto.
    + destruct (negb known); [|destruct (memN (gm_key m) (ge_com E (gm_epoch m))) eqn:Em; cbn [negb];
        [destruct (match tget (g_tal s) (gm_dig E m) with Some t => memN (gm_key m) (t_signers t) | None => false end);
         [|destruct (ge_vrfy E (gm_dig E m) (gm_key m) (gm_sig m)) eqn:Ev]|]];
        intros H; injection H as <- <-;
        (split; [apply inv_tasks; auto|simpl; try tauto; try (intros m0 [H0|[]]; discriminate)]).
      intros t Hin. apply in_app_iff in Hin as [Hin|[<-|[]]]; [auto|]. right.
      apply task_ok_tally; [apply T1; auto|].
      exists m. split; [apply T1; auto|]. split; auto. split; auto. split; auto. apply memN_In; auto.
    + destruct (tally_section E (g_tal s) m) as [[fx0 l2] full] eqn:Et. intros H; injection H as <- <-.
      destruct (tally_section_inv _ _ _ _ _ _ (gi_nd _ _ A) (gi_sig _ _ A) (T2 m eq_refl) Et) as (C1 & C2 & C3 & C4).
      split; [|intros m0 H; exfalso; eapply C4; eauto].
      constructor; cbn [g_tal g_tasks]; auto.
      intros t Hin. destruct full; [|apply (gi_tasks _ _ A); auto].
      apply in_app_iff in Hin as [Hin|[<-|[]]]; [apply (gi_tasks _ _ A); auto|].
      apply task_ok_behind; [apply T1; auto|]. apply C3; auto.
    + destruct behind; intros H; injection H as <- <-.
      * split; [|intros m0 [H|[]]; discriminate]. apply inv_tasks; auto.
        intros t Hin. apply in_app_iff in Hin as [Hin|[<-|[]]]; [auto|]. right. apply task_ok_clear.
      * split; [|intros m0 [H|[]]; injection H as <-; apply T3; auto]. apply inv_tasks; auto.
        intros t Hin. apply in_app_iff in Hin as [Hin|[<-|[]]]; [auto|]. right. apply task_ok_clear.
    + intros H; injection H as <- <-. split; [|intros m0 [H|[]]; discriminate].
      constructor; cbn [g_tal g_tasks]; [constructor|intros d t []|]. intros t Hin. apply (gi_tasks _ _ A); auto.
  - intros H; injection H as <- <-. split; [|simpl; tauto]. apply inv_tasks; auto.
Qed.

Lemma grun_inv evs2 : forall evs1 s fx s',
  ginv evs1 s -> grun E s evs2 = (fx, s') ->
  ginv (evs1 ++ evs2) s' /\ (forall m, In (GPublish m) fx -> pub_ok (evs1 ++ evs2) m).
Proof.
  induction evs2 as [|e evs2 IH]; intros evs1 s fx s' Hi; cbn [grun].
  - intros H; injection H as <- <-. rewrite app_nil_r. split; auto. simpl; tauto.
  - destruct (gstep E s e) as [fx1 s1] eqn:E1. destruct (grun E s1 evs2) as [fx2 s2] eqn:E2.
    intros H; injection H as <- <-.
    destruct (gstep_inv _ _ _ _ _ Hi E1) as [H1 H2].
    destruct (IH (evs1 ++ [e]) s1 fx2 s2 H1 E2) as [H3 H4]. rewrite <- app_assoc in H3, H4. split; [exact H3|].
    intros m Hm. apply in_app_iff in Hm as [Hm|Hm]; [|auto].
    destruct (H2 m Hm) as (ks & K1 & K2 & K3). exists ks. split; auto. split; auto. intros k Hk.
    eapply backed_mono; [|apply K3; auto]. intros x Hx. apply in_app_iff in Hx as [Hx|[<-|[]]]; apply in_app_iff; simpl; auto.
Qed.

Lemma init_inv pub : ginv [] (g_init pub).
Proof. constructor; simpl; try tauto; try constructor. Qed.

Lemma backed_signed evs m k : genv_ok E -> backed evs (gm_dig E m) k -> signed_result E evs m k.
Proof.
  intros Hok (m' & H1 & H2 & H3 & H4 & H5). unfold gm_dig in H2. apply (go_dig E Hok) in H2 as (E1 & E2 & E3 & E4).
  destruct m' as [e' r' n' h' k' s']. cbn in *. subst.
  split; auto. exists s'. split; auto.
Qed.

(* ---------- size ---------- *)
Lemma tally_section_len l m fx l2 full C :
  tally_section E l m = (fx, l2, full) -> length (ge_com E (gm_epoch m)) <= C ->
  length l <= Nat.max C MAX_CONSENSUS_CERTS -> length l2 <= Nat.max C MAX_CONSENSUS_CERTS.
Proof.
  unfold tally_section; cbv zeta. intros H HC Hl.
  destruct (negb (thas l (gm_dig E m)) && _); [injection H as <- <- <-; auto|].
  set (cap := Nat.max (length (ge_com E (gm_epoch m))) MAX_CONSENSUS_CERTS) in *.
  destruct ((cap <=? length l) && negb (thas l (gm_dig E m))) eqn:Ec.
  - apply andb_true_iff in Ec as [Ec1 Ec2]. apply Nat.leb_le in Ec1.
    destruct (oldest_some l) as (v & q & Ho).
    { intros ->. simpl in Ec1. unfold cap, MAX_CONSENSUS_CERTS in Ec1. lia. }
    rewrite Ho in H. injection H as <- <- <-. rewrite bump_len.
    apply oldest_In in Ho. apply tdel_lt in Ho. destruct (thas (tdel l v) (gm_dig E m)); lia.
  - injection H as <- <- <-. rewrite bump_len. apply andb_false_iff in Ec.
    destruct (thas l (gm_dig E m)); [lia|]. destruct Ec as [Ec|Ec]; [|discriminate]. apply Nat.leb_gt in Ec. lia.
Qed.

Lemma grun_len evs : forall s fx s' C, (forall e, length (ge_com E e) <= C) ->
  length (g_tal s) <= Nat.max C MAX_CONSENSUS_CERTS -> grun E s evs = (fx, s') ->
  length (g_tal s') <= Nat.max C MAX_CONSENSUS_CERTS.
Proof.
  induction evs as [|e evs IH]; intros s fx s' C HC Hl; cbn [grun].
  - intros H; injection H as <- <-. auto.
  - destruct (gstep E s e) as [fx1 s1] eqn:E1. destruct (grun E s1 evs) as [fx2 s2] eqn:E2.
    intros H; injection H as <- <-. eapply IH; [exact HC| |exact E2].
    destruct e as [m|i known behind|e n h]; cbn [gstep] in E1; [injection E1 as <- <-; auto| |injection E1 as <- <-; auto].
    destruct (nth_error (g_tasks s) i) as [t|]; [|injection E1 as <- <-; auto].
    destruct t as [m|m|m|m|]; cbn [run_task] in E1.
    + destruct (_ || _); injection E1 as <- <-; auto.
    + repeat (match type of E1 with context[if ?b then _ else _] => destruct b end); injection E1 as <- <-; auto.
    + destruct (tally_section E (g_tal s) m) as [[fx0 l2] full] eqn:Et. injection E1 as <- <-. cbn [g_tal].
      eapply tally_section_len; eauto.
    + destruct behind; injection E1 as <- <-; auto.
    + injection E1 as <- <-. cbn [g_tal length]. lia.
Qed.

(* ---------- the published number only grows ---------- *)
Lemma grun_mono evs : forall s fx s', grun E s evs = (fx, s') -> (pub_number (g_pub s) <= pub_number (g_pub s'))%N.
Proof.
  assert (Hp : forall p e n h, (pub_number p <= pub_number (publish_if_newer p e n h))%N).
  { intros p e n h. unfold publish_if_newer. destruct (N.ltb (pub_number p) n) eqn:En; [|lia].
    apply N.ltb_lt in En. unfold pub_number at 2. cbn [fst snd]. lia. }
  induction evs as [|e evs IH]; intros s fx s'; cbn [grun].
  - intros H; injection H as <- <-. lia.
  - destruct (gstep E s e) as [fx1 s1] eqn:E1. destruct (grun E s1 evs) as [fx2 s2] eqn:E2.
    intros H; injection H as <- <-. specialize (IH _ _ _ E2).
    enough (pub_number (g_pub s) <= pub_number (g_pub s1))%N by lia.
    destruct e as [m|i known behind|e n h]; cbn [gstep] in E1; [injection E1 as <- <-; cbn; lia| |injection E1 as <- <-; cbn [g_pub]; auto].
    destruct (nth_error (g_tasks s) i) as [t|]; [|injection E1 as <- <-; lia].
    destruct t as [m|m|m|m|]; cbn [run_task] in E1.
    + destruct (_ || _); injection E1 as <- <-; cbn; lia.
    + repeat (match type of E1 with context[if ?b then _ else _] => destruct b end); injection E1 as <- <-; cbn; lia.
    + destruct (tally_section E (g_tal s) m) as [[fx0 l2] full]. injection E1 as <- <-. cbn; lia.
    + destruct behind; injection E1 as <- <-; cbn [g_pub]; [lia|auto].
    + injection E1 as <- <-. cbn; lia.
Qed.

(* ---------- no eviction under the discipline ---------- *)
Variables (B NS : list N) (res : N -> N).
Hypothesis HB : NoDup B.

Record crowd (l : tallies) : Prop := {
  cr_nd : NoDup (map fst l);
  cr_one : forall d t, In (d, t) l -> exists c r, t_signers t = c :: r /\ In (t_number t) NS /\ (In c B \/ d = res (t_number t)) ;
  cr_two : forall k n, length (filter (fun e => N.eqb (t_number (snd e)) n && N.eqb (hd 0%N (t_signers (snd e))) k) l) <= 2 }.

Lemma filter_len_split {A} (f g h : A -> bool) l :
  (forall x, In x l -> f x = true -> g x = true \/ h x = true) ->
  length (filter f l) <= length (filter g l) + length (filter h l).
Proof.
  induction l as [|x l IH]; simpl; intros H; auto.
  assert (IH' : length (filter f l) <= length (filter g l) + length (filter h l)) by (apply IH; auto).
  specialize (H x (or_introl eq_refl)). destruct (f x); [destruct H as [-> | ->]; auto; simpl|]; 
    repeat match goal with |- context[if ?b then _ else _] => destruct b end; simpl; lia.
Qed.

Lemma count_in {A} (f : A -> N) (l : list A) (K : list N) n (g : A -> bool) :
  (forall k, length (filter (fun x => g x && N.eqb (f x) k) l) <= n) ->
  length (filter (fun x => g x && memN (f x) K) l) <= n * length K.
Proof.
  intros H. induction K as [|k K IH]; cbn [length].
  - assert (filter (fun x => g x && memN (f x) []) l = []) as ->.
    { clear. induction l as [|x l IH]; simpl; auto. rewrite andb_false_r. auto. }
    simpl; lia.
  - etransitivity; [apply (filter_len_split _ (fun x => g x && N.eqb (f x) k) (fun x => g x && memN (f x) K))|].
    + intros x _ Hx. apply andb_true_iff in Hx as [Hg Hx]. unfold memN in *. cbn [existsb] in Hx.
      apply orb_true_iff in Hx. rewrite Hg. destruct Hx; [left|right]; auto.
    + specialize (H k). rewrite Nat.mul_succ_r. lia.
Qed.

Lemma crowd_len l : crowd l -> length l <= length NS * (2 * length B + 1).
Proof.
  intros [C1 C2 C3].
  (* all entries have their number in NS *)
  assert (Hall : filter (fun e : N * tally => true && memN (t_number (snd e)) NS) l = l).
  { clear C1 C3. induction l as [|e l IH]; simpl; auto.
    destruct e as [d t]. destruct (C2 d t (or_introl eq_refl)) as (c & r & _ & Hin & _).
    cbn [snd]. apply memN_In in Hin. rewrite Hin. f_equal. apply IH. intros d' t' H'. apply C2. right; auto. }
  rewrite <- Hall at 1.
  rewrite (Nat.mul_comm (length NS)).
  apply count_in. intros n.
  assert (H1 : length (filter (fun e : N * tally => N.eqb (t_number (snd e)) n && memN (hd 0%N (t_signers (snd e))) B) l) <= 2 * length B).
  { apply (count_in (fun e : N * tally => hd 0%N (t_signers (snd e))) l B 2). intros k. apply C3. }
  assert (H2 : length (filter (fun e : N * tally => N.eqb (t_number (snd e)) n && N.eqb (fst e) (res n)) l) <= 1).
  { clear -C1. induction l as [|[d t] l IH]; simpl; [lia|]. inversion C1; subst.
    destruct (N.eqb (t_number t) n && N.eqb d (res n)) eqn:Ed; [|auto].
    simpl. assert (filter (fun e : N * tally => N.eqb (t_number (snd e)) n && N.eqb (fst e) (res n)) l = []) as ->; [|simpl; lia].
    apply andb_true_iff in Ed as [_ Ed]. apply N.eqb_eq in Ed. subst d.
    assert (forall e, In e l -> fst e <> res n) by (intros e He Hf; apply H1; rewrite <- Hf; apply in_map; auto).
    clear -H. induction l as [|[d t] l IH]; simpl; auto.
    destruct (N.eqb d (res n)) eqn:Ed; [apply N.eqb_eq in Ed; exfalso; apply (H (d, t)); simpl; auto|].
    rewrite andb_false_r. apply IH. intros e He. apply H. right; auto. }
  etransitivity; [apply (filter_len_split _ (fun e : N * tally => N.eqb (t_number (snd e)) n && memN (hd 0%N (t_signers (snd e))) B)
                                           (fun e : N * tally => N.eqb (t_number (snd e)) n && N.eqb (fst e) (res n)))|lia].
  intros [d t] Hin Hx. cbn [andb snd fst] in *. rewrite Hx. cbn [andb].
  destruct (C2 d t Hin) as (c & r & Hc & _ & Hd). rewrite Hc. cbn [hd]. destruct Hd as [Hd|Hd].
  - left. apply memN_In. auto.
  - right. apply N.eqb_eq in Hx. subst n. apply N.eqb_eq. auto.
Qed.

Lemma filter_app_len {A} (f : A -> bool) a b : length (filter f (a ++ b)) = length (filter f a) + length (filter f b).
Proof. rewrite filter_app, app_length. auto. Qed.

(* creating or joining a tally without eviction keeps the shape *)
Lemma crowd_bump l m q :
  crowd l -> In (gm_number m) NS -> (In (gm_key m) B \/ gm_dig E m = res (gm_number m)) ->
  (forall d t, In (d, t) l -> d = gm_dig E m -> t_number t = gm_number m) ->
  (thas l (gm_dig E m) = false -> held l (gm_key m) (gm_number m) < 2) ->
  crowd (bump l (gm_dig E m) q (gm_number m) (gm_key m)).
Proof.
  intros [C1 C2 C3] Hn Hk Hsame Hheld. constructor.
  - apply bump_NoDup; auto.
  - intros d t Hin. apply bump_In in Hin as [[_ Hin]|[[t0 [Hin He]]|[_ He]]].
    + apply C2; auto.
    + injection He as -> ->. cbn [t_signers t_number]. destruct (C2 _ _ Hin) as (c & r & H1 & H2 & H3).
      rewrite (Hsame _ _ Hin eq_refl) in H3. rewrite H1.
      exists c. destruct (memN (gm_key m) (c :: r)); [exists r|exists (r ++ [gm_key m])]; auto.
    + injection He as -> ->. cbn [t_signers t_number]. eauto 6.
  - intros k n. unfold bump. destruct (thas l (gm_dig E m)) eqn:Eh.
    + etransitivity; [|apply (C3 k n)]. clear C3.
      assert (Hin : forall d t, In (d, t) l -> d = gm_dig E m -> t_number t = gm_number m) by auto.
      clear C1 Eh Hheld Hsame. revert C2 Hin. induction l as [|[d t] l IH]; simpl; intros C2 Hin; auto.
      assert (IH' := IH (fun d' t' H' => C2 d' t' (or_intror H')) (fun d' t' H' => Hin d' t' (or_intror H'))). clear IH.
      destruct (N.eqb d (gm_dig E m)) eqn:Ed.
      * apply N.eqb_eq in Ed. cbn [snd t_number t_signers].
        rewrite (Hin d t (or_introl eq_refl) Ed). destruct (C2 d t (or_introl eq_refl)) as (c & r & Hc & _). rewrite Hc.
        destruct (memN (gm_key m) (c :: r)); cbn [hd app];
          destruct (N.eqb (gm_number m) n && N.eqb c k); simpl; lia.
      * cbn [snd]. destruct (N.eqb (t_number t) n && N.eqb (hd 0%N (t_signers t)) k); simpl; lia.
    + rewrite filter_app_len. cbn [filter snd t_number t_signers hd].
      destruct (N.eqb (gm_number m) n && N.eqb (gm_key m) k) eqn:En; [|specialize (C3 k n); simpl; lia].
      apply andb_true_iff in En as [En1 En2]. apply N.eqb_eq in En1, En2. subst n k.
      specialize (Hheld eq_refl). unfold held in Hheld.
      assert (length (filter (fun e : N * tally => N.eqb (t_number (snd e)) (gm_number m) && N.eqb (hd 0%N (t_signers (snd e))) (gm_key m)) l)
              <= length (filter (fun e : N * tally => N.eqb (t_number (snd e)) (gm_number m) && memN (gm_key m) (t_signers (snd e))) l)).
      { clear Hheld C3 C1 Eh Hsame. revert C2. induction l as [|[d t] l IH]; simpl; intros C2; auto.
        assert (IH' := IH (fun d' t' H' => C2 d' t' (or_intror H'))). clear IH.
        destruct (C2 d t (or_introl eq_refl)) as (c & r & Hc & _). cbn [snd]. rewrite Hc. cbn [hd].
        destruct (N.eqb (t_number t) (gm_number m)); cbn [andb]; [|auto].
        destruct (N.eqb c (gm_key m)) eqn:Ec.
        - apply N.eqb_eq in Ec. subst c. assert (memN (gm_key m) (gm_key m :: r) = true) as -> by (apply memN_In; simpl; auto).
          simpl. lia.
        - destruct (memN (gm_key m) (c :: r)); simpl; lia. }
      simpl. lia.
Qed.

Lemma tally_section_crowd l m fx l2 full :
  crowd l -> In (gm_number m) NS -> (In (gm_key m) B \/ gm_dig E m = res (gm_number m)) ->
  (forall d t, In (d, t) l -> d = gm_dig E m -> t_number t = gm_number m) ->
  length NS * (2 * length B + 1) <= Nat.max (length (ge_com E (gm_epoch m))) MAX_CONSENSUS_CERTS ->
  tally_section E l m = (fx, l2, full) ->
  crowd l2 /\ (forall d, ~ In (GEvict d) fx) /\
  (forall d t, In (d, t) l2 -> (exists t0, In (d, t0) l /\ t_number t = t_number t0) \/ (d = gm_dig E m /\ t_number t = gm_number m)) /\
  (forall d t, In (d, t) l -> exists t', In (d, t') l2 /\ incl (t_signers t) (t_signers t')) /\
  (In (gm_dig E m) (map fst l) -> exists t', In (gm_dig E m, t') l2 /\ In (gm_key m) (t_signers t')) /\
  (held l (gm_key m) (gm_number m) < 2 -> exists t', In (gm_dig E m, t') l2 /\ In (gm_key m) (t_signers t')).
Proof.
  intros Hc Hn Hk Hsame Hcap. unfold tally_section; cbv zeta.
  destruct (negb (thas l (gm_dig E m)) && (MAX_TALLIES_PER_SIGNER_PER_NUMBER <=? held l (gm_key m) (gm_number m))) eqn:Elim.
  { intros H; injection H as <- <- <-. split; auto. split; [simpl; tauto|].
    split; [intros d t Hin; left; eauto|]. split; [intros d t Hin; exists t; split; [auto|apply incl_refl]|].
    apply andb_true_iff in Elim as [El1 El2]. apply negb_true_iff in El1.
    split; [intros Hin; apply thas_In in Hin; congruence|].
    unfold MAX_TALLIES_PER_SIGNER_PER_NUMBER in El2. apply Nat.leb_le in El2. lia. }
  assert (Hheld : thas l (gm_dig E m) = false -> held l (gm_key m) (gm_number m) < 2).
  { intros Hh. rewrite Hh in Elim. cbn [negb andb] in Elim. apply Nat.leb_gt in Elim. exact Elim. }
  assert (Hnew : forall q, crowd (bump l (gm_dig E m) q (gm_number m) (gm_key m))) by (intros q; apply crowd_bump; auto).
  assert (Hcond : (Nat.max (length (ge_com E (gm_epoch m))) MAX_CONSENSUS_CERTS <=? length l) && negb (thas l (gm_dig E m)) = false).
  { apply andb_false_iff. destruct (thas l (gm_dig E m)) eqn:Eh; [auto|]. left. apply Nat.leb_gt.
    pose proof (crowd_len _ (Hnew 0)) as Hl. rewrite bump_len, Eh in Hl. lia. }
  rewrite Hcond. intros H; injection H as <- <- <-. split; [apply Hnew|]. split; [intros d [H|[]]; discriminate|].
  assert (Hself : exists t', In (gm_dig E m, t') (bump l (gm_dig E m) (next_seq l) (gm_number m) (gm_key m)) /\ In (gm_key m) (t_signers t')).
  { unfold bump. destruct (thas l (gm_dig E m)) eqn:Eh.
    - apply thas_In in Eh. apply in_map_iff in Eh as [[d t] [Hd Hin]]. cbn [fst] in Hd. subst d.
      eexists. split; [apply in_map_iff; exists (gm_dig E m, t); split; [cbn [fst snd]; rewrite N.eqb_refl; reflexivity|auto]|].
      cbn [t_signers]. destruct (memN (gm_key m) (t_signers t)) eqn:Em; [apply memN_In; auto|apply in_app_iff; simpl; auto].
    - eexists. split; [apply in_app_iff; right; left; reflexivity|]. simpl; auto. }
  split; [|split; [|split; auto]].
  - intros d t Hin. apply bump_In in Hin as [[_ Hin]|[[t0 [Hin He]]|[_ He]]]; [left; eauto| |].
    + injection He as -> ->. right. auto.
    + injection He as -> ->. right. auto.
  - intros d t Hin. unfold bump. destruct (thas l (gm_dig E m)) eqn:Eh.
    + destruct (N.eqb d (gm_dig E m)) eqn:Ed.
      * eexists. split; [apply in_map_iff; exists (d, t); split; [cbn [fst snd]; rewrite Ed; apply N.eqb_eq in Ed; rewrite <- Ed; reflexivity|auto]|].
        cbn [t_signers]. destruct (memN (gm_key m) (t_signers t)); [apply incl_refl|apply incl_appl, incl_refl].
      * exists t. split; [apply in_map_iff; exists (d, t); split; [cbn [fst]; rewrite Ed; auto|auto]|apply incl_refl].
    + exists t. split; [apply in_app_iff; auto|apply incl_refl].
Qed.

(* numbers of tallies agree with the digests of their messages *)
Definition numbered (evs : list gev) (l : tallies) : Prop :=
  forall d t, In (d, t) l -> exists m, arrived evs m /\ gm_dig E m = d /\ gm_number m = t_number t.

Lemma numbered_same evs l m : numbered evs l -> forall d t, In (d, t) l -> d = gm_dig E m -> t_number t = gm_number m.
Proof.
  intros H d t Hin ->. destruct (H _ _ Hin) as (m' & _ & H2 & H3). unfold gm_dig in H2.
  apply (go_dig E OK) in H2 as (_ & _ & H2 & _). congruence.
Qed.

Lemma gstep_crowd all evs s e fx s' :
  honest_discipline E B NS res all -> incl (evs ++ [e]) all ->
  (forall ep, length NS * (2 * length B + 1) <= Nat.max (length (ge_com E ep)) MAX_CONSENSUS_CERTS) ->
  ginv evs s -> crowd (g_tal s) -> numbered evs (g_tal s) -> gstep E s e = (fx, s') ->
  crowd (g_tal s') /\ numbered (evs ++ [e]) (g_tal s') /\ (forall d, ~ In (GEvict d) fx) /\
  (~ In GCleared fx -> forall d t, In (d, t) (g_tal s) -> exists t', In (d, t') (g_tal s') /\ incl (t_signers t) (t_signers t')).
Proof.
  intros Hd Hall Hcap Hi Hc Hnum.
  assert (Hnum' : numbered (evs ++ [e]) (g_tal s)).
  { intros d t Hin. destruct (Hnum d t Hin) as (m & H1 & H2). exists m. split; auto. apply in_app_iff; auto. }
  assert (Hid : forall d t, In (d, t) (g_tal s) -> exists t', In (d, t') (g_tal s) /\ incl (t_signers t) (t_signers t')).
  { intros d t Hin. exists t. split; auto. apply incl_refl. }
  destruct e as [m|i known behind|e n h]; cbn [gstep];
    [intros H; injection H as <- <-; cbn [g_tal]; (split; [exact Hc|]); (split; [exact Hnum'|]); (split; [simpl; tauto|intros _; exact Hid])| |
     intros H; injection H as <- <-; cbn [g_tal]; (split; [exact Hc|]); (split; [exact Hnum'|]); (split; [simpl; tauto|intros _; exact Hid])].
  destruct (nth_error (g_tasks s) i) as [t|] eqn:En.
  2: { intros H; injection H as <- <-. split; [exact Hc|]. split; [exact Hnum'|]. split; [simpl; tauto|intros _; exact Hid]. }
  assert (Ht : In t (g_tasks s)) by (eapply nth_error_In; eauto).
  destruct t as [m|m|m|m|]; cbn [run_task].
  - destruct (_ || _); intros H; injection H as <- <-; cbn [g_tal]; (split; [exact Hc|]); (split; [exact Hnum'|]); (split; [simpl; tauto|intros _; exact Hid]).
  - repeat (match goal with |- context[if ?b then _ else _] => destruct b end); intros H; injection H as <- <-; cbn [g_tal];
      (split; [exact Hc|]); (split; [exact Hnum'|]); (split; [intros d HH; simpl in HH; repeat (destruct HH as [HH|HH]; [discriminate|]); destruct HH|intros _; exact Hid]).
  - destruct (tally_section E (g_tal s) m) as [[fx0 l2] full] eqn:Et. intros H; injection H as <- <-. cbn [g_tal].
    pose proof (gi_tally _ _ Hi m Ht) as Hb. pose proof (gi_task _ _ Hi (TTally m) m Ht eq_refl) as Ha.
    destruct Hb as (m' & B1 & B2 & B3 & B4 & B5).
    assert (Hdm : In (gm_number m) NS /\ (In (gm_key m) B \/ gm_dig E m = res (gm_number m))).
    { assert (Hm' : arrived all m') by (apply Hall; apply in_app_iff; left; exact B1).
      destruct (Hd m' Hm') as [D1 D2].
      { rewrite B2, B3. exact B4. }
      assert (HN : gm_number m' = gm_number m) by (unfold gm_dig in B2; apply (go_dig E OK) in B2 as (_ & _ & HN & _); exact HN).
      rewrite HN, B3, B2 in D2. rewrite HN in D1. auto. }
    destruct Hdm as [D1 D2].
    destruct (tally_section_crowd _ _ _ _ _ Hc D1 D2 (numbered_same _ _ m Hnum) (Hcap _) Et) as (R1 & R2 & R3 & R4 & _).
    split; auto. split.
    { intros d t Hin. destruct (R3 d t Hin) as [[t0 [H1 H2]]|[-> H2]].
      - destruct (Hnum' d t0 H1) as (m0 & M1 & M2 & M3). exists m0. split; auto. split; auto. congruence.
      - exists m. split; [apply in_app_iff; left; exact Ha|]. auto. }
    split; [exact R2|intros _; exact R4].
  - destruct behind; intros H; injection H as <- <-; cbn [g_tal]; (split; [exact Hc|]); (split; [exact Hnum'|]);
      (split; [intros d [H|[]]; discriminate|intros _; exact Hid]).
  - intros H; injection H as <- <-. cbn [g_tal]. split; [constructor; simpl; try tauto; try constructor; intros; lia|].
    split; [intros d t []|]. split; [intros d [H|[]]; discriminate|]. intros H. exfalso. apply H. simpl; auto.
Qed.

Lemma grun_crowd evs2 : forall all evs1 s fx s',
  honest_discipline E B NS res all -> incl (evs1 ++ evs2) all ->
  (forall ep, length NS * (2 * length B + 1) <= Nat.max (length (ge_com E ep)) MAX_CONSENSUS_CERTS) ->
  ginv evs1 s -> crowd (g_tal s) -> numbered evs1 (g_tal s) -> grun E s evs2 = (fx, s') ->
  (forall d, ~ In (GEvict d) fx) /\
  (~ In GCleared fx -> forall d t, In (d, t) (g_tal s) -> exists t', In (d, t') (g_tal s') /\ incl (t_signers t) (t_signers t')).
Proof.
  induction evs2 as [|e evs2 IH]; intros all evs1 s fx s' Hd Hall Hcap Hi Hc Hn; cbn [grun].
  - intros H; injection H as <- <-. split; [simpl; tauto|]. intros _ d t Hin. exists t. split; auto. apply incl_refl.
  - destruct (gstep E s e) as [fx1 s1] eqn:E1. destruct (grun E s1 evs2) as [fx2 s2] eqn:E2.
    intros H; injection H as <- <-.
    assert (Hall1 : incl (evs1 ++ [e]) all).
    { intros x Hx. apply Hall. apply in_app_iff in Hx as [Hx|[<-|[]]]; apply in_app_iff; simpl; auto. }
    destruct (gstep_crowd all _ _ _ _ _ Hd Hall1 Hcap Hi Hc Hn E1) as (R1 & R2 & R3 & R4).
    destruct (gstep_inv _ _ _ _ _ Hi E1) as [I1 _].
    destruct (IH all (evs1 ++ [e]) s1 fx2 s2 Hd) as [S1 S2]; auto.
    { rewrite <- app_assoc. exact Hall. }
    split.
    + intros d Hin. apply in_app_iff in Hin as [Hin|Hin]; [eapply R3; eauto|eapply S1; eauto].
    + intros Hncl d t Hin. assert (N1 : ~ In GCleared fx1) by (intros H; apply Hncl; apply in_app_iff; auto).
      assert (N2 : ~ In GCleared fx2) by (intros H; apply Hncl; apply in_app_iff; auto).
      destruct (R4 N1 d t Hin) as (t1 & T1 & T2). destruct (S2 N2 d t1 T1) as (t2 & T3 & T4).
      exists t2. split; auto. eapply incl_tran; eauto.
Qed.

End Env.

(* ---------- epoch votes ---------- *)
Lemma key2_eq a b : key2 a b = true <-> a = b.
Proof.
  unfold key2. rewrite andb_true_iff, !N.eqb_eq. destruct a, b; cbn. split; [intros [-> ->]; auto|intros H; injection H; auto].
Qed.
Lemma seen_has_In l k : seen_has l k = true <-> In k (map fst l).
Proof.
  unfold seen_has. rewrite existsb_exists, in_map_iff. split.
  - intros [e [H1 H2]]. apply key2_eq in H2. eauto.
  - intros [e [H1 H2]]. exists e. split; auto. apply key2_eq; auto.
Qed.
Lemma seen_oldest_In l v q : seen_oldest l = Some (v, q) -> In v (map fst l).
Proof.
  revert v q; induction l as [|[k t] l IH]; simpl; intros v q; [discriminate|].
  destruct (seen_oldest l) as [[d' q']|].
  - destruct (t <=? q'); intros H; injection H as <- <-; [auto|right; eapply IH; eauto].
  - intros H; injection H as <- <-; auto.
Qed.
Lemma filter_key2_lt l v : In v (map fst l) -> length (filter (fun e : (N * N) * nat => negb (key2 (fst e) v)) l) < length l.
Proof.
  induction l as [|[k t] l IH]; simpl; [tauto|].
  pose proof (filter_length_le (fun e : (N * N) * nat => negb (key2 (fst e) v)) l).
  destruct (key2 k v) eqn:Ek; simpl; [lia|]. intros [<-|H1]; [|specialize (IH H1); lia].
  assert (key2 k k = true) by (apply key2_eq; auto). congruence.
Qed.
Lemma record_vote_len cap l k : 0 < cap -> length l <= cap -> length (record_vote cap l k) <= cap.
Proof.
  intros H0 Hl. unfold record_vote. cbn [length].
  pose proof (fun l' => filter_length_le (fun e : (N * N) * nat => negb (key2 (fst e) k)) l') as Hf.
  destruct (seen_has l k) eqn:Es.
  - rewrite andb_false_r. apply seen_has_In in Es. apply filter_key2_lt in Es. lia.
  - rewrite andb_true_r. destruct (cap <=? length l) eqn:Ec.
    + apply Nat.leb_le in Ec. destruct (seen_oldest l) as [[v q]|] eqn:Eo.
      * apply seen_oldest_In in Eo. apply filter_key2_lt in Eo. specialize (Hf (filter (fun e => negb (key2 (fst e) v)) l)). lia.
      * destruct l as [|[k' q'] l]; [simpl in *; lia|]. simpl in Eo. destruct (seen_oldest l) as [[? ?]|]; [destruct (q' <=? n)|]; discriminate.
    + apply Nat.leb_gt in Ec. specialize (Hf l). lia.
Qed.
