(** Proofs for C66. *)
From Verif Require Import Util RlModel RlSpec.
Local Open Scope N_scope.

Lemma NS_pos : 1 <= NS. Proof. discriminate. Qed.
Lemma count_cons f x w : count f (x :: w) = (if f x then 1 else 0) + count f w.
Proof. unfold count. cbn [filter]. destruct (f x); cbn [length]; lia. Qed.
Lemma count_app f a b : count f (a ++ b) = count f a + count f b.
Proof. unfold count. rewrite filter_app, app_length. lia. Qed.

(* ---------- what is left of a limit, by the history ---------- *)
Section L.
Variable l : limit.
Variable f : entry -> bool.
Record Level (h : list entry) (t V : N) : Prop := {
  lv_times : Forall (fun e => e_time e <= t) h;
  lv_cap : V <= capacity l;
  lv_all : forall pre x w, h = pre ++ x :: w -> V + NS * count f (x :: w) <= capacity l + rate l * (t - e_time x);
  lv_some : V = capacity l \/ exists pre x w, h = pre ++ x :: w /\ V + NS * count f (x :: w) = capacity l + rate l * (t - e_time x) }.
Lemma level_start t : Level [] t (capacity l).
Proof using Type. constructor; [constructor|lia| |auto]. intros pre x w E. destruct pre; discriminate. Qed.
Lemma in_mid {A} (P : A -> Prop) h pre x w : Forall P h -> h = pre ++ x :: w -> P x.
Proof using Type. intros F ->. apply Forall_app in F. destruct F as [_ F]. inversion F; auto. Qed.
Lemma level_later h t t' V : t <= t' -> Level h t V -> Level h t' (N.min (V + (t' - t) * rate l) (capacity l)).
Proof using Type.
  intros L [T C A S]. constructor.
  - eapply Forall_impl; [|exact T]. intros e He. cbv beta in *. lia.
  - lia.
  - intros pre x w E. specialize (A _ _ _ E). pose proof (in_mid _ _ _ _ _ T E) as Tx. cbv beta in Tx.
    replace (t' - e_time x) with ((t' - t) + (t - e_time x)) by lia. rewrite N.mul_add_distr_l.
    rewrite (N.mul_comm (rate l) (t' - t)). lia.
  - destruct (N.le_gt_cases (capacity l) (V + (t' - t) * rate l)) as [G|G]; [left; lia|].
    destruct S as [S|[pre [x [w [E S]]]]]; [left; generalize dependent ((t' - t) * rate l); intros q G; lia|].
    right. exists pre, x, w. split; [auto|]. pose proof (in_mid _ _ _ _ _ T E) as Tx. cbv beta in Tx.
    replace (t' - e_time x) with ((t' - t) + (t - e_time x)) by lia. rewrite N.mul_add_distr_l, (N.mul_comm (rate l) (t' - t)). lia.
Qed.
Lemma snoc_split {A} (h : list A) e pre x w : h ++ [e] = pre ++ x :: w -> (pre = h /\ x = e /\ w = []) \/ exists w', w = w' ++ [e] /\ h = pre ++ x :: w'.
Proof using Type.
  destruct w as [|y w _] using rev_ind; intros E.
  - apply app_inj_tail in E. destruct E as [-> ->]. auto.
  - right. exists w. change (x :: w ++ [y]) with ((x :: w) ++ [y]) in E. rewrite app_assoc in E. apply app_inj_tail in E.
    destruct E as [-> ->]. auto.
Qed.
Lemma level_snoc h t V e : e_time e = t -> Level h t V -> (f e = true -> NS <= V) ->
  Level (h ++ [e]) t (V - (if f e then NS else 0)).
Proof using Type.
  intros Et [T C A S] P. remember (if f e then NS else 0) as c eqn:Dc. assert (Pc : c <= V) by (rewrite Dc; destruct (f e); [auto|lia]).
  assert (Ce : NS * count f [e] = c).
  { rewrite count_cons, Dc. change (count f []) with 0. destruct (f e); reflexivity. }
  constructor.
  - apply Forall_app. split; [auto|]. constructor; [lia|constructor].
  - lia.
  - intros pre x w E. apply snoc_split in E. destruct E as [[-> [-> ->]]|[w' [-> E]]].
    + rewrite Ce. lia.
    + specialize (A _ _ _ E). change (x :: w' ++ [e]) with ((x :: w') ++ [e]). rewrite count_app, N.mul_add_distr_l, Ce. lia.
  - destruct S as [S|[pre [x [w [E S]]]]].
    + destruct (f e) eqn:Fe; [|left; rewrite Dc; lia].
      right. exists h, e, []. split; [auto|]. rewrite Ce, Et. lia.
    + right. exists pre, x, (w ++ [e]). split; [rewrite E, <- app_assoc; reflexivity|].
      change (x :: w ++ [e]) with ((x :: w) ++ [e]). rewrite count_app, N.mul_add_distr_l, Ce. lia.
Qed.
Lemma level_spare h t V : limit_set l -> Level h t V -> (NS <= V <-> spare l f h t).
Proof using Type.
  intros [_ B] [T C A S]. unfold spare. fold (capacity l). split.
  - intros L pre x w E. specialize (A _ _ _ E). rewrite N.mul_add_distr_l, N.mul_1_r. lia.
  - intros H. destruct S as [->|[pre [x [w [E S]]]]].
    + unfold capacity. pose proof NS_pos. nia.
    + specialize (H _ _ _ E). rewrite N.mul_add_distr_l, N.mul_1_r in H. lia.
Qed.

(* ---------- a bucket ---------- *)
Definition good (b : bucket) (t : N) : Prop := at_ b <= t /\ tok b <= capacity l.
Lemma replenished_later b t t' : good b t -> t <= t' -> replenished b t' l = N.min (replenished b t l + (t' - t) * rate l) (capacity l).
Proof using Type.
  intros [A B] L. unfold replenished. replace (t' - at_ b) with ((t' - t) + (t - at_ b)) by lia. rewrite N.mul_add_distr_r. lia.
Qed.
Lemma try_admit_now b t b' ok : good b t -> try_admit b t l = (b', ok) ->
  good b' t /\ (ok = true <-> NS <= replenished b t l) /\ replenished b' t l = replenished b t l - (if ok then NS else 0).
Proof using Type.
  intros [A B]. unfold try_admit. set (v := replenished b t l). assert (Hv : v <= capacity l) by (unfold v, replenished; lia).
  destruct (N.leb_spec NS v) as [L|L]; intros E; injection E as <- <-; unfold good, replenished; cbn [tok at_];
    rewrite N.sub_diag, N.mul_0_l; repeat split; auto; try lia; discriminate.
Qed.
End L.

(* ---------- the table ---------- *)
Lemma addr_eqb_eq a b : addr_eqb a b = true <-> a = b.
Proof.
  destruct a, b; simpl; rewrite ?N.eqb_eq; split; intros H; try discriminate; try congruence.
Qed.
Lemma addr_eqb_refl a : addr_eqb a a = true. Proof. apply addr_eqb_eq. reflexivity. Qed.
Lemma find_put_same t k b b0 : find t k = Some b0 -> find (put t k b) k = Some b.
Proof.
  unfold find, put. induction t as [|[k' b'] t IH]; simpl; [discriminate|]. destruct (addr_eqb k' k) eqn:E; simpl.
  - rewrite addr_eqb_refl. reflexivity.
  - rewrite E. exact IH.
Qed.
Lemma find_put_other t k b k' : k' <> k -> find (put t k b) k' = find t k'.
Proof.
  intros N. unfold find, put. induction t as [|[k1 b1] t IH]; simpl; [reflexivity|]. destruct (addr_eqb k1 k) eqn:E; simpl.
  - apply addr_eqb_eq in E. subst k1. destruct (addr_eqb k k') eqn:E'; [apply addr_eqb_eq in E'; congruence|]. exact IH.
  - destruct (addr_eqb k1 k'); [reflexivity|exact IH].
Qed.
Lemma put_keys t k b : map fst (put t k b) = map fst t.
Proof.
  unfold put. rewrite map_map. apply map_ext. intros [k' b']. simpl. destruct (addr_eqb k' k) eqn:E; [apply addr_eqb_eq in E; auto|reflexivity].
Qed.
Lemma find_in t k b : find t k = Some b -> In (k, b) t.
Proof.
  unfold find. destruct (List.find _ t) as [[k' b']|] eqn:E; [|discriminate]. simpl. intros X; injection X as ->.
  apply find_some in E. destruct E as [I E]. simpl in E. apply addr_eqb_eq in E. subst. exact I.
Qed.
Lemma find_none t k : find t k = None -> ~ In k (map fst t).
Proof.
  unfold find. destruct (List.find _ t) as [p|] eqn:E; [discriminate|]. intros _ I. apply in_map_iff in I. destruct I as [[k' b] [<- I]].
  eapply find_none in E; [|exact I]. simpl in E. rewrite addr_eqb_refl in E. discriminate.
Qed.
Lemma find_filter t k P : NoDup (map fst t) -> find (filter P t) k = match find t k with Some b => if P (k, b) then Some b else None | None => None end.
Proof.
  induction t as [|[k' b'] t IH]; intros ND; [reflexivity|]. cbn [map fst] in ND. inversion ND as [|? ? NI ND']; subst.
  cbn [filter]. unfold find at 2. cbn [List.find fst]. destruct (addr_eqb k' k) eqn:E.
  - apply addr_eqb_eq in E. subst k'. cbn [option_map snd]. destruct (P (k, b')) eqn:Ep.
    + unfold find. cbn [List.find fst]. rewrite addr_eqb_refl. reflexivity.
    + rewrite IH by auto. destruct (find t k) eqn:F; [|reflexivity]. exfalso. apply NI. apply in_map_iff. exists (k, b). split; [auto|]. apply find_in. auto.
  - fold (find t k). destruct (P (k', b')); [|apply IH; auto]. unfold find at 1. cbn [List.find fst]. rewrite E. fold (find (filter P t) k). apply IH; auto.
Qed.

(* ---------- every run ---------- *)
Lemma run_app cf st es es' : run cf st (es ++ es') = let '(s1, h1) := run cf st es in let '(s2, h2) := run cf s1 es' in (s2, h1 ++ h2).
Proof.
  revert st; induction es as [|e es IH]; intros st; cbn [run app]; [destruct (run cf st es'); reflexivity|].
  destruct (step cf st e) as [s0 l0]. rewrite IH. destruct (run cf s0 es) as [s1 h1]. destruct (run cf s1 es') as [s2 h2]. rewrite app_assoc. reflexivity.
Qed.
Section R.
Variable cf : conf.
Hypothesis CF : conf_ok cf.
Variable ks : list addr.
Hypothesis KS : N.of_nat (length ks) <= N.max (c_max cf) 1.
Definition vlevel (l : limit) (t : table) (k : addr) (now : N) : N :=
  match find t k with Some b => replenished b now l | None => capacity l end.
Record Inv (st : state) (h : list entry) (t : N) : Prop := {
  i_times : Forall (fun e => e_time e <= t) h;
  i_g : forall l, c_global cf = Some l -> good l (g st) t /\ Level l passed_global h t (replenished (g st) t l);
  i_nodup : NoDup (map fst (tbl st));
  i_keys : incl (map fst (tbl st)) ks;
  i_c : forall l, c_client cf = Some l -> Forall (fun p => good l (snd p) t) (tbl st) /\
          forall k, Level l (passed_client cf k) h t (vlevel l (tbl st) k t) }.

Lemma good_later l b t t' : t <= t' -> good l b t -> good l b t'.
Proof using All. intros L [A B]. split; [lia|auto]. Qed.
Lemma vlevel_later l tb k t t' : Forall (fun p => good l (snd p) t) tb -> t <= t' ->
  vlevel l tb k t' = N.min (vlevel l tb k t + (t' - t) * rate l) (capacity l).
Proof using All.
  intros F L. unfold vlevel. destruct (find tb k) as [b|] eqn:E; [|lia]. apply replenished_later; auto.
  apply find_in in E. rewrite Forall_forall in F. apply (F _ E).
Qed.
Lemma inv_later st h t t' : t <= t' -> Inv st h t -> Inv st h t'.
Proof using All.
  intros L [T G ND K C]. constructor; auto.
  - eapply Forall_impl; [|exact T]. intros e He. cbv beta in *. lia.
  - intros l E. destruct (G l E) as [G1 G2]. split; [eapply good_later; eauto|].
    rewrite (replenished_later l _ t t') by auto. apply level_later; auto.
  - intros l E. destruct (C l E) as [C1 C2]. split; [eapply Forall_impl; [|exact C1]; intros p; apply good_later; auto|].
    intros k. rewrite (vlevel_later l _ k t t') by auto. apply level_later; auto.
Qed.
Lemma inv_start t0 : Inv (start cf t0) [] t0.
Proof using All.
  constructor; [constructor| |constructor|intros x []|].
  - intros l E. unfold start. rewrite E. cbn [g]. unfold full, good. split; [cbn [tok at_]; lia|].
    replace (replenished _ t0 l) with (capacity l) by (unfold replenished; cbn [tok at_]; lia). apply level_start.
  - intros l E. split; [constructor|]. intros k. apply level_start.
Qed.
Lemma inv_gc st h t : Inv st h t -> Inv (gc cf st t) h t.
Proof using All.
  intros [T G ND K C]. unfold gc. destruct (c_client cf) as [l|] eqn:E; [|constructor; auto; rewrite E; auto].
  assert (SUB : forall P (tb : table), NoDup (map fst tb) -> NoDup (map fst (filter P tb)) /\ incl (map fst (filter P tb)) (map fst tb)).
  { clear. intros P tb. induction tb as [|p tb IH]; intros ND; [split; [constructor|intros x []]|]. cbn [map] in ND. inversion ND as [|? ? NI ND']; subst.
    destruct (IH ND') as [I1 I2]. cbn [filter]. destruct (P p); cbn [map].
    - split; [constructor; auto|]. intros x [<-|Hx]; [left; auto|right; auto].
    - split; [auto|]. intros x Hx. right. auto. }
  destruct (SUB (fun p => negb (is_idle (snd p) t l)) (tbl st) ND) as [S1 S2].
  constructor; cbn [g tbl]; auto.
  - intros x Hx. apply K, S2, Hx.
  - intros l' E'. assert (l' = l) by congruence. subst l'. destruct (C l eq_refl) as [C1 C2]. split.
    + apply Forall_forall. intros p Hp. apply filter_In in Hp. rewrite Forall_forall in C1. apply C1, Hp.
    + intros k. replace (vlevel l _ k t) with (vlevel l (tbl st) k t); [apply C2|].
      unfold vlevel. rewrite find_filter by auto. destruct (find (tbl st) k) as [b|] eqn:F; [|reflexivity]. cbn [snd].
      unfold is_idle. destruct (N.leb_spec (capacity l) (replenished b t l)) as [X|X]; cbn [negb]; [|reflexivity].
      unfold replenished in *. lia.
Qed.
(** what one request is told, and what it leaves *)
Lemma inv_check st h t p st' o : Inv st h t -> (forall a, p = Some a -> In (key cf a) ks) -> check cf st t p = (st', o) ->
  Inv st' (h ++ [{| e_time := t; e_peer := p; e_out := o |}]) t /\
  (o = RefusedGlobal <-> exists l, c_global cf = Some l /\ ~ spare l passed_global h t) /\
  (o <> RefusedGlobal -> (o = RefusedClient <-> exists l a, c_client cf = Some l /\ p = Some a /\ ~ spare l (passed_client cf (key cf a)) h t)).
Proof using All.
  intros [T G ND K C] HP. unfold check. destruct CF as [CG CC].
  destruct (match c_global cf with Some l => try_admit (g st) t l | None => (g st, true) end) as [g' gok] eqn:EG.
  (* the global part *)
  assert (HG : forall o', (gok = false <-> o' = RefusedGlobal) ->
    (forall l, c_global cf = Some l -> good l g' t /\ Level l passed_global (h ++ [{| e_time := t; e_peer := p; e_out := o' |}]) t (replenished g' t l)) /\
    (o' = RefusedGlobal <-> exists l, c_global cf = Some l /\ ~ spare l passed_global h t)).
  { intros o' Ho. destruct (c_global cf) as [l|] eqn:El.
    - destruct (G l eq_refl) as [G1 G2]. destruct (try_admit_now l _ _ _ _ G1 EG) as [H1 [H2 H3]].
      rewrite (level_spare l passed_global h t _ (CG l eq_refl) G2) in H2. split.
      + intros l' E. injection E as <-. split; [exact H1|]. rewrite H3.
        assert (Fe : passed_global {| e_time := t; e_peer := p; e_out := o' |} = gok).
        { unfold passed_global. cbn [e_out]. destruct gok, o'; auto; try (destruct Ho as [Ho1 Ho2]; discriminate (Ho2 eq_refl)); destruct Ho as [Ho1 Ho2]; discriminate (Ho1 eq_refl). }
        rewrite <- Fe. apply level_snoc; [reflexivity|exact G2|]. rewrite Fe. intros Gk. apply (level_spare l passed_global h t _ (CG l eq_refl) G2). tauto.
      + rewrite <- Ho. split.
        * intros ->. exists l. split; [auto|]. intros S. apply H2 in S. discriminate.
        * intros [l' [E S]]. injection E as <-. destruct gok; [exfalso; apply S; tauto|reflexivity].
    - split; [intros l E; discriminate|]. injection EG as <- <-. rewrite <- Ho. split; [discriminate|intros [l [E _]]; discriminate]. }
  (* a table that does not change, and an entry that counts for no client *)
  assert (HC0 : forall o' (tb := tbl st), (o' = Passed -> c_client cf = None \/ p = None) ->
    forall l, c_client cf = Some l -> Forall (fun q => good l (snd q) t) tb /\
      forall k, Level l (passed_client cf k) (h ++ [{| e_time := t; e_peer := p; e_out := o' |}]) t (vlevel l tb k t)).
  { intros o' tb Hn l E. destruct (C l E) as [C1 C2]. split; [auto|]. intros k.
    assert (Fe : passed_client cf k {| e_time := t; e_peer := p; e_out := o' |} = false).
    { unfold passed_client. cbn [e_out e_peer]. destruct o'; auto. destruct (Hn eq_refl) as [X| ->]; [congruence|reflexivity]. }
    pose proof (level_snoc l (passed_client cf k) h t (vlevel l tb k t) {| e_time := t; e_peer := p; e_out := o' |} eq_refl (C2 k)) as LS.
    rewrite Fe, N.sub_0_r in LS. apply LS. discriminate. }
  assert (HT : forall o', Forall (fun e => e_time e <= t) (h ++ [{| e_time := t; e_peer := p; e_out := o' |}])).
  { intros o'. apply Forall_app. split; [auto|]. constructor; [cbn; lia|constructor]. }
  destruct gok.
  2:{ intros E. injection E as <- <-. destruct (HG RefusedGlobal ltac:(tauto)) as [A1 A2]. split; [|split; [exact A2|congruence]].
      constructor; cbn [g tbl]; auto. apply HC0. discriminate. }
  assert (NG : forall o', (o' = Passed \/ o' = RefusedClient) -> (true = false <-> o' = RefusedGlobal)).
  { intros o' [-> | ->]; split; discriminate. }
  destruct (c_client cf) as [l|] eqn:El; [destruct p as [a|]|].
  2,3: intros E; injection E as <- <-; destruct (HG Passed (NG _ (or_introl eq_refl))) as [A1 A2];
    split; [constructor; cbn [g tbl]; auto; rewrite El; apply HC0; auto|split; [exact A2|]];
    intros _; split; [discriminate|intros [l0 [a0 [E1 [E2 _]]]]; discriminate].
  destruct (client_admit l (N.max (c_max cf) 1) t (key cf a) (tbl st)) as [t' ok] eqn:EC. intros E. injection E as <- <-.
  set (k0 := key cf a) in *. destruct (C l eq_refl) as [C1 C2].
  assert (Hk : In k0 ks) by (apply HP; reflexivity).
  (* the client's bucket *)
  assert (HB : NoDup (map fst t') /\ incl (map fst t') ks /\ Forall (fun q => good l (snd q) t) t' /\
    (ok = true <-> NS <= vlevel l (tbl st) k0 t) /\
    (forall k, vlevel l t' k t = if addr_eqb k0 k then vlevel l (tbl st) k0 t - (if ok then NS else 0) else vlevel l (tbl st) k t)).
  { unfold client_admit in EC. destruct (find (tbl st) k0) as [b|] eqn:F.
    - destruct (try_admit b t l) as [b' ok'] eqn:EB. injection EC as <- <-.
      assert (Gb : good l b t) by (apply find_in in F; rewrite Forall_forall in C1; apply (C1 _ F)).
      destruct (try_admit_now l _ _ _ _ Gb EB) as [H1 [H2 H3]]. rewrite put_keys.
      split; [auto|]. split; [auto|]. split.
      { unfold put. apply Forall_map. eapply Forall_impl; [|exact C1]. intros q Hq. destruct (addr_eqb (fst q) k0); [exact H1|exact Hq]. }
      unfold vlevel at 1. rewrite F. split; [exact H2|]. intros k. unfold vlevel. rewrite F. destruct (addr_eqb k0 k) eqn:Ek.
      + apply addr_eqb_eq in Ek. subst k. rewrite (find_put_same _ _ _ _ F). exact H3.
      + rewrite find_put_other; [reflexivity|]. intros ->. rewrite addr_eqb_refl in Ek. discriminate.
    - assert (NK : ~ In k0 (map fst (tbl st))) by (apply find_none; auto).
      assert (LT : N.of_nat (length (tbl st)) < N.max (c_max cf) 1).
      { assert (S : (length (k0 :: map fst (tbl st)) <= length ks)%nat).
        { apply NoDup_incl_length; [constructor; auto|]. intros x [<-|Hx]; auto. }
        cbn [length] in S. rewrite map_length in S. lia. }
      destruct (N.ltb_spec (N.of_nat (length (tbl st))) (N.max (c_max cf) 1)); [|lia].
      destruct (try_admit (full t l) t l) as [b' ok'] eqn:EB. injection EC as <- <-.
      assert (Gb : good l (full t l) t) by (unfold good, full; cbn; lia).
      assert (RF : replenished (full t l) t l = capacity l) by (unfold replenished, full; cbn [tok at_]; lia).
      destruct (try_admit_now l _ _ _ _ Gb EB) as [H1 [H2 H3]]. rewrite RF in H2, H3. cbn [map fst].
      split; [constructor; auto|]. split; [intros x [<-|Hx]; auto|]. split; [constructor; [exact H1|exact C1]|].
      unfold vlevel at 1. rewrite F. split; [exact H2|]. intros k. unfold vlevel, find at 1. cbn [List.find fst].
      destruct (addr_eqb k0 k) eqn:Ek; [cbn [option_map snd]; rewrite F; exact H3|]. fold (find (tbl st) k). reflexivity. }
  destruct HB as [B1 [B2 [B3 [B4 B5]]]].
  set (o' := if ok then Passed else RefusedClient).
  assert (Ho' : o' = Passed \/ o' = RefusedClient) by (unfold o'; destruct ok; auto).
  destruct (HG o' (NG _ Ho')) as [A1 A2]. fold o'. split; [|split; [exact A2|]].
  - constructor; cbn [g tbl]; auto. intros l' E. assert (l' = l) by congruence. subst l'. split; [exact B3|]. intros k. rewrite B5.
    assert (Fe : passed_client cf k {| e_time := t; e_peer := Some a; e_out := o' |} = (ok && addr_eqb k0 k)%bool).
    { unfold passed_client, o'. cbn [e_out e_peer]. destruct ok; reflexivity. }
    pose proof (level_snoc l (passed_client cf k) h t (vlevel l (tbl st) k t) {| e_time := t; e_peer := Some a; e_out := o' |} eq_refl (C2 k)) as LS.
    rewrite Fe in LS. destruct (addr_eqb k0 k) eqn:Ek.
    + apply addr_eqb_eq in Ek. subst k. rewrite andb_true_r in LS. apply LS. tauto.
    + rewrite andb_false_r, N.sub_0_r in LS. apply LS. discriminate.
  - intros _. rewrite (level_spare l (passed_client cf k0) h t _ (CC l eq_refl) (C2 k0)) in B4. unfold o'. split.
    + intros X. exists l, a. split; [auto|]. split; [auto|]. intros S. apply B4 in S. subst ok. discriminate.
    + intros [l' [a' [E1 [E2 S]]]]. injection E1 as <-. injection E2 as <-. fold k0 in S. destruct ok; [exfalso; apply S; tauto|reflexivity].
Qed.

Lemma inv_run es : forall st h t, Inv st h t -> in_order t es -> (forall u a, In (Request u (Some a)) es -> In (key cf a) ks) ->
  let '(st', h') := run cf st es in exists t', Inv st' (h ++ h') t' /\ t <= t' /\ (forall e r, es = r ++ [e] -> t' = time e) /\ (es = [] -> t' = t).
Proof using All.
  induction es as [|e es IH]; intros st h t I O HK; cbn [run].
  - exists t. rewrite app_nil_r. split; [auto|]. split; [lia|]. split; [|auto]. intros e r E. destruct r; discriminate.
  - destruct O as [O1 O2]. destruct (step cf st e) as [s1 h1] eqn:Es.
    assert (I1 : Inv s1 (h ++ h1) (time e)).
    { apply (inv_later _ _ _ (time e)) in I; [|exact O1]. destruct e as [u p|u]; cbn [step time] in *.
      - destruct (check cf st u p) as [s2 o] eqn:Ec. injection Es as <- <-.
        apply (proj1 (inv_check _ _ _ _ _ _ I (fun a E => HK u a ltac:(left; rewrite E; reflexivity)) Ec)).
      - injection Es as <- <-. rewrite app_nil_r. apply inv_gc. exact I. }
    specialize (IH s1 (h ++ h1) (time e) I1 O2 (fun u a X => HK u a (or_intror X))).
    destruct (run cf s1 es) as [s2 h2]. destruct IH as [t' [J [L [E1 E2]]]]. exists t'. rewrite app_assoc. split; [exact J|]. split; [lia|]. split; [|discriminate].
    intros e' r E. destruct r as [|x r]; simpl in E; injection E as <- E; [rewrite E2; auto|eauto].
Qed.
End R.
