(** C66: the gateway's rate limiter. *)
From Verif Require Import Util RlModel RlSpec RlProofs.
Local Open Scope N_scope.

(* ---------- histories and their steps ---------- *)
Lemma history_snoc cf t0 es e : history cf t0 (es ++ [e]) = history cf t0 es ++ snd (step cf (fst (run cf (start cf t0) es)) e).
Proof.
  unfold history. rewrite run_app. destruct (run cf (start cf t0) es) as [s h]. cbn [fst snd run].
  destruct (step cf s e) as [s' l]. cbn [snd]. rewrite app_nil_r. reflexivity.
Qed.
Lemma in_order_app t0 a b : in_order t0 (a ++ b) -> in_order t0 a.
Proof. revert t0; induction a as [|e a IH]; intros t0; cbn; [auto|]. intros [H1 H2]. auto. Qed.
Lemma in_order_snoc t0 es e e' : in_order t0 ((es ++ [e']) ++ [e]) -> time e' <= time e.
Proof.
  revert t0; induction es as [|x es IH]; intros t0; cbn [app in_order].
  - intros [_ [H _]]. exact H.
  - intros [_ H]. eapply IH; eauto.
Qed.
Lemma in_order_last t0 es e : in_order t0 (es ++ [e]) -> t0 <= time e.
Proof. revert t0; induction es as [|x es IH]; intros t0; cbn [app in_order]; intros [H1 H2]; [auto|]. apply IH in H2. lia. Qed.
Lemma run_split cf es : forall st ha e hb, snd (run cf st es) = ha ++ e :: hb ->
  exists es1 es2, es = es1 ++ Request (e_time e) (e_peer e) :: es2 /\ snd (run cf st es1) = ha.
Proof.
  induction es as [|x es IH]; intros st ha e hb; cbn [run]; [destruct ha; discriminate|].
  destruct (step cf st x) as [s l] eqn:Es. destruct (run cf s es) as [s' l'] eqn:Er. cbn [snd]. intros E.
  assert (G : forall ha', l' = ha' ++ e :: hb -> ha = l ++ ha' -> exists es1 es2, x :: es = es1 ++ Request (e_time e) (e_peer e) :: es2 /\ snd (run cf st es1) = ha).
  { intros ha' E1 E2. destruct (IH s ha' e hb) as [es1 [es2 [-> H]]]; [rewrite Er; exact E1|]. exists (x :: es1), es2. split; [reflexivity|].
    cbn [run]. rewrite Es. destruct (run cf s es1) as [s2 l2]. cbn [snd] in *. subst. reflexivity. }
  destruct x as [t p|t]; cbn [step] in Es.
  - destruct (check cf st t p) as [s0 o]. injection Es as <- <-. destruct ha as [|y ha]; cbn [app] in E; injection E as <- E.
    + exists [], es. split; reflexivity.
    + apply (G ha); auto.
  - injection Es as <- <-. apply (G ha); auto.
Qed.

(* ---------- the limiter of the whole gateway, whatever the table does ---------- *)
Section G.
Variable cf : conf.
Variable l : limit.
Hypothesis GL : c_global cf = Some l.
Hypothesis LS : limit_set l.
Definition InvG (st : state) (h : list entry) (t : N) : Prop := good l (g st) t /\ Level l passed_global h t (replenished (g st) t l).
Lemma invg_check st h t u p st' o : InvG st h t -> t <= u -> check cf st u p = (st', o) ->
  InvG st' (h ++ [{| e_time := u; e_peer := p; e_out := o |}]) u /\ (o = RefusedGlobal <-> ~ spare l passed_global h u).
Proof using All.
  intros [G1 G2] L. apply (level_later l _ _ _ u) in G2; [|exact L]. rewrite <- (replenished_later l _ t u G1 L) in G2.
  assert (G1' : good l (g st) u) by (destruct G1; split; [lia|auto]).
  unfold check. rewrite GL. destruct (try_admit (g st) u l) as [g' gok] eqn:E.
  destruct (try_admit_now l _ _ _ _ G1' E) as [H1 [H2 H3]]. pose proof (level_spare l passed_global h u _ LS G2) as SP.
  assert (X : forall o', (gok = false <-> o' = RefusedGlobal) ->
    Level l passed_global (h ++ [{| e_time := u; e_peer := p; e_out := o' |}]) u (replenished g' u l) /\ (o' = RefusedGlobal <-> ~ spare l passed_global h u)).
  { intros o' Ho. assert (Fe : passed_global {| e_time := u; e_peer := p; e_out := o' |} = gok).
    { unfold passed_global. cbn [e_out]. destruct Ho as [Ho1 Ho2]. destruct gok, o'; auto; try discriminate (Ho2 eq_refl); discriminate (Ho1 eq_refl). }
    rewrite H3, <- Fe. split.
    - apply level_snoc; [reflexivity|exact G2|]. rewrite Fe. tauto.
    - rewrite <- Ho, <- SP. destruct gok; [|split; [intros _ Y; apply H2 in Y; discriminate|auto]].
      split; [discriminate|]. intros Y. exfalso. apply Y. tauto. }
  destruct gok.
  - assert (Y : forall o', (o' = Passed \/ o' = RefusedClient) -> (true = false <-> o' = RefusedGlobal)) by (intros o' [-> | ->]; split; discriminate).
    destruct (c_client cf) as [lc|]; [destruct p as [a|]|].
    + destruct (client_admit _ _ _ _ _) as [t' ok]. intros Z. injection Z as <- <-. unfold InvG. cbn [g].
      destruct (X _ (Y (if ok then Passed else RefusedClient) ltac:(destruct ok; auto))) as [X1 X2]. auto.
    + intros Z. injection Z as <- <-. unfold InvG. cbn [g]. destruct (X _ (Y Passed (or_introl eq_refl))) as [X1 X2]. auto.
    + intros Z. injection Z as <- <-. unfold InvG. cbn [g]. destruct (X _ (Y Passed (or_introl eq_refl))) as [X1 X2]. auto.
  - intros Z. injection Z as <- <-. unfold InvG. cbn [g]. destruct (X RefusedGlobal ltac:(tauto)) as [X1 X2]. auto.
Qed.
Lemma invg_gc st h t u : InvG st h t -> t <= u -> InvG (gc cf st u) h u.
Proof using All.
  intros [G1 G2] L. unfold InvG. replace (g (gc cf st u)) with (g st) by (unfold gc; destruct (c_client cf); reflexivity).
  split; [destruct G1; split; [lia|auto]|]. rewrite (replenished_later l _ t u G1 L). apply level_later; auto.
Qed.
Lemma invg_run es : forall st h t, InvG st h t -> in_order t es ->
  let '(st', h') := run cf st es in exists t', InvG st' (h ++ h') t' /\ t <= t' /\ (forall e r, es = r ++ [e] -> t' = time e) /\ (es = [] -> t' = t).
Proof using All.
  induction es as [|e es IH]; intros st h t I O; cbn [run].
  - exists t. rewrite app_nil_r. split; [auto|]. split; [lia|]. split; [|auto]. intros e r E. destruct r; discriminate.
  - destruct O as [O1 O2]. destruct (step cf st e) as [s1 h1] eqn:Es.
    assert (I1 : InvG s1 (h ++ h1) (time e)).
    { destruct e as [u p|u]; cbn [step time] in *.
      - destruct (check cf st u p) as [s2 o] eqn:Ec. injection Es as <- <-. apply (invg_check _ _ _ _ _ _ _ I O1 Ec).
      - injection Es as <- <-. rewrite app_nil_r. eapply invg_gc; eauto. }
    specialize (IH s1 (h ++ h1) (time e) I1 O2).
    destruct (run cf s1 es) as [s2 h2]. destruct IH as [t' [J [L [E1 E2]]]]. exists t'. rewrite app_assoc. split; [exact J|]. split; [lia|]. split; [|discriminate].
    intros e' r E. destruct r as [|x r]; simpl in E; injection E as <- E; [rewrite E2; auto|eauto].
Qed.
Lemma invg_start t0 : InvG (start cf t0) [] t0.
Proof using All.
  unfold start, InvG. rewrite GL. cbn [g]. split; [unfold good, full; cbn [tok at_]; lia|].
  replace (replenished _ t0 l) with (capacity l) by (unfold replenished, full; cbn [tok at_]; lia). apply level_start.
Qed.

(** In every stretch of time, from its first request [x] to its last [y], no more requests get past the gateway's limit than it
    allows; none is refused by it that it would allow; whatever clients there are and however many. *)
Theorem C66_gateway_limit t0 es : in_order t0 es ->
  (forall h1 x w y h2, history cf t0 es = h1 ++ x :: w ++ y :: h2 ->
    NS * count passed_global (x :: w ++ [y]) <= burst l * NS + rate l * (e_time y - e_time x)) /\
  (forall h1 y h2, history cf t0 es = h1 ++ y :: h2 -> (e_out y = RefusedGlobal <-> ~ spare l passed_global h1 (e_time y))).
Proof using All.
  intros O. split.
  - intros h1 x w y h2 E. change (h1 ++ x :: w ++ y :: h2) with (h1 ++ (x :: w) ++ y :: h2) in E. rewrite app_assoc in E.
    destruct (run_split cf es _ _ _ _ E) as [es1 [es2 [Ee Eh]]].
    replace (es1 ++ Request (e_time y) (e_peer y) :: es2) with ((es1 ++ [Request (e_time y) (e_peer y)]) ++ es2) in Ee by (rewrite <- app_assoc; reflexivity).
    rewrite Ee in O. apply in_order_app in O. pose proof (invg_run _ _ _ _ (invg_start t0) O) as R.
    destruct (run cf (start cf t0) (es1 ++ [Request (e_time y) (e_peer y)])) as [s h] eqn:Er. destruct R as [t' [[_ R] [_ [Rt _]]]].
    rewrite (Rt _ _ eq_refl) in R. cbn [time app] in R.
    assert (Hh : h = ((h1 ++ x :: w) ++ [y])).
    { rewrite Ee in E. unfold history in E. rewrite run_app, Er in E. destruct (run cf s es2) as [s3 h3]. cbn [snd] in E.
      pose proof (f_equal snd Er) as Q. cbn [snd] in Q. rewrite run_app in Q. destruct (run cf (start cf t0) es1) as [s4 h4] eqn:E4. cbn [snd] in Eh. subst h4.
      cbn [run step] in Q. destruct (check cf s4 (e_time y) (e_peer y)) as [s5 o]. cbn [snd app] in Q. rewrite <- Q in E. rewrite <- app_assoc in E.
      apply app_inv_head in E. cbn [app] in E. injection E as E _. rewrite <- Q, E. reflexivity. }
    rewrite Hh, <- app_assoc in R. destruct R as [_ _ R _]. specialize (R h1 x (w ++ [y]) eq_refl). fold (capacity l). lia.
  - intros h1 y h2 E. destruct (run_split cf es _ _ _ _ E) as [es1 [es2 [Ee Eh]]].
    replace (es1 ++ Request (e_time y) (e_peer y) :: es2) with ((es1 ++ [Request (e_time y) (e_peer y)]) ++ es2) in Ee by (rewrite <- app_assoc; reflexivity).
    rewrite Ee in O. apply in_order_app in O. pose proof (invg_run es1 _ _ _ (invg_start t0) (in_order_app _ _ _ O)) as R.
    destruct (run cf (start cf t0) es1) as [s h] eqn:Er. cbn [snd] in Eh. subst h. destruct R as [t' [R [L [R1 R2]]]]. cbn [app] in R.
    assert (Lt : t' <= e_time y).
    { destruct es1 as [|z es1 _] using rev_ind; [rewrite R2 by auto; apply (in_order_last t0 [] _ O)|].
      rewrite (R1 z es1 eq_refl). apply (in_order_snoc t0 es1 _ _ O). }
    destruct (check cf s (e_time y) (e_peer y)) as [s5 o] eqn:Ec. destruct (invg_check _ _ _ _ _ _ _ R Lt Ec) as [_ X].
    replace (e_out y) with o; [exact X|]. rewrite Ee in E. unfold history in E. rewrite <- app_assoc, run_app, Er in E. cbn [app run step] in E. rewrite Ec in E.
    destruct (run cf s5 es2) as [s6 h6]. cbn [snd app] in E. apply app_inv_head in E. injection E as E _. rewrite <- E. reflexivity.
Qed.
End G.

(* ---------- the limiter of one client ---------- *)
Section C.
Variable cf : conf.
Hypothesis CF : conf_ok cf.
Lemma few_app a b : few_clients cf (a ++ b) -> few_clients cf a.
Proof using Type. intros [ks [H1 H2]]. exists ks. split; [auto|]. intros t x I. apply (H2 t x). apply in_or_app. auto. Qed.
Lemma inv_after t0 es : in_order t0 es -> few_clients cf es ->
  exists ks t', Inv cf ks (fst (run cf (start cf t0) es)) (history cf t0 es) t' /\ N.of_nat (length ks) <= N.max (c_max cf) 1 /\
    (forall t a, In (Request t (Some a)) es -> In (key cf a) ks) /\ (forall e r, es = r ++ [e] -> t' = time e) /\ (es = [] -> t' = t0).
Proof using All.
  intros O [ks [H1 H2]]. pose proof (inv_run cf CF ks H1 es _ _ _ (inv_start cf CF ks H1 t0) O H2) as R.
  unfold history. destruct (run cf (start cf t0) es) as [s h]. destruct R as [t' [R1 [_ [R2 R3]]]]. exists ks, t'. cbn [fst snd]. auto.
Qed.

(** Exactly what a request is told, from the clock and the history of answers alone. *)
Theorem C66_exact t0 es t p : in_order t0 (es ++ [Request t p]) -> few_clients cf (es ++ [Request t p]) ->
  let h := history cf t0 es in
  exists o, history cf t0 (es ++ [Request t p]) = h ++ [{| e_time := t; e_peer := p; e_out := o |}] /\
    (o = RefusedGlobal <-> exists l, c_global cf = Some l /\ ~ spare l passed_global h t) /\
    (o <> RefusedGlobal -> (o = RefusedClient <-> exists l a, c_client cf = Some l /\ p = Some a /\ ~ spare l (passed_client cf (key cf a)) h t)).
Proof using All.
  intros O F h. destruct F as [ks [K1 K2]].
  pose proof (inv_run cf CF ks K1 es _ _ _ (inv_start cf CF ks K1 t0) (in_order_app _ _ _ O) (fun u a I => K2 u a (in_or_app _ _ _ (or_introl I)))) as R.
  rewrite history_snoc. unfold h, history. destruct (run cf (start cf t0) es) as [s hh] eqn:Er. cbn [fst snd]. destruct R as [t' [R [L [R1 R2]]]]. cbn [app] in R.
  assert (Lt : t' <= t).
  { destruct es as [|z es _] using rev_ind; [rewrite R2 by auto; apply (in_order_last t0 [] _ O)|]. rewrite (R1 z es eq_refl). apply (in_order_snoc t0 es _ _ O). }
  apply (inv_later cf CF ks K1 _ _ _ t Lt) in R. cbn [step]. destruct (check cf s t p) as [s' o] eqn:Ec. exists o. split; [reflexivity|].
  destruct (inv_check cf CF ks K1 s hh t p s' o R) as [_ X]; [|exact Ec|exact X].
  intros a ->. apply (K2 t a). apply in_or_app. right. left. reflexivity.
Qed.

(** In every stretch of time no more requests of one client are let through than its limit allows. *)
Theorem C66_client_limit l t0 es : c_client cf = Some l -> in_order t0 es -> few_clients cf es ->
  forall k h1 x w y h2, history cf t0 es = h1 ++ x :: w ++ y :: h2 ->
    NS * count (passed_client cf k) (x :: w ++ [y]) <= burst l * NS + rate l * (e_time y - e_time x).
Proof using All.
  intros El O F k h1 x w y h2 E. change (h1 ++ x :: w ++ y :: h2) with (h1 ++ (x :: w) ++ y :: h2) in E. rewrite app_assoc in E.
  destruct (run_split cf es _ _ _ _ E) as [es1 [es2 [Ee Eh]]].
  replace (es1 ++ Request (e_time y) (e_peer y) :: es2) with ((es1 ++ [Request (e_time y) (e_peer y)]) ++ es2) in Ee by (rewrite <- app_assoc; reflexivity).
  rewrite Ee in O, F. apply in_order_app in O. apply few_app in F.
  destruct (inv_after t0 _ O F) as [ks [t' [I [_ [_ [Rt _]]]]]]. rewrite (Rt _ _ eq_refl) in I. cbn [time] in I.
  assert (Hh : history cf t0 (es1 ++ [Request (e_time y) (e_peer y)]) = ((h1 ++ x :: w) ++ [y])).
  { rewrite Ee in E. rewrite history_snoc. unfold history in *. rewrite run_app in E.
    rewrite run_app in E. destruct (run cf (start cf t0) es1) as [s4 h4]. cbn [fst snd] in *. subst h4. cbn [run] in E.
    destruct (step cf s4 (Request (e_time y) (e_peer y))) as [s5 l5] eqn:E5. cbn [step] in E5. destruct (check cf s4 _ _) as [s6 o]. injection E5 as <- <-.
    destruct (run cf s6 es2) as [s7 h7]. cbn [snd] in *. rewrite app_nil_r, <- app_assoc in E. apply app_inv_head in E. cbn [app] in E. injection E as E _.
    rewrite E. reflexivity. }
  rewrite Hh, <- app_assoc in I. destruct (i_c _ _ _ _ _ I l El) as [_ C]. destruct (C k) as [_ _ R _].
  specialize (R h1 x (w ++ [y]) eq_refl). fold (capacity l). lia.
Qed.

(** The sweeps change no answer. *)
Theorem C66_sweeps_invisible t0 es : in_order t0 es -> few_clients cf es -> history cf t0 es = history cf t0 (requests es).
Proof using All.
  assert (RA : forall a b, requests (a ++ b) = requests a ++ requests b).
  { clear. intros a b. induction a as [|[t p|t] a IH]; cbn; rewrite ?IH; reflexivity. }
  assert (RO : forall es t0, in_order t0 es -> in_order t0 (requests es)).
  { clear. assert (W : forall es t t', t <= t' -> in_order t' es -> in_order t es) by (intros [|e es] t t' L; cbn; [auto|intros [H1 H2]; split; [lia|auto]]).
    induction es as [|[t p|t] es IH]; intros t0; cbn [in_order requests time]; [auto| |]; intros [H1 H2]; [split; auto|]. apply IH in H2. eapply W; eauto. }
  assert (RF : forall es, few_clients cf es -> few_clients cf (requests es)).
  { clear. intros es [ks [H1 H2]]. exists ks. split; [auto|]. intros t a I. apply (H2 t a). clear - I. induction es as [|[u p|u] es IH]; cbn in *; [auto| |auto].
    destruct I as [I|I]; auto. }
  induction es as [|e es IH] using rev_ind; intros O F; [reflexivity|].
  specialize (IH (in_order_app _ _ _ O) (few_app _ _ F)). destruct e as [t p|t].
  - destruct (C66_exact t0 es t p O F) as [o [E [E1 E2]]]. rewrite E, RA. cbn [requests].
    apply RO in O. apply RF in F. rewrite RA in O, F. cbn [requests] in O, F.
    destruct (C66_exact t0 (requests es) t p O F) as [o' [E' [E1' E2']]]. rewrite E'. rewrite <- IH in *. do 2 f_equal. f_equal.
    destruct o, o'; auto; exfalso;
      try (assert (X : Passed = RefusedGlobal) by tauto; discriminate X);
      try (assert (X : RefusedClient = RefusedGlobal) by tauto; discriminate X);
      (assert (Y1 : Passed <> RefusedGlobal) by discriminate; assert (Y2 : RefusedClient <> RefusedGlobal) by discriminate;
       assert (X : Passed = RefusedClient) by tauto; discriminate X).
  - rewrite history_snoc, RA. cbn [requests step snd]. rewrite !app_nil_r. exact IH.
Qed.
End C.

(** The table of clients never outgrows its cap, whatever the clock does. *)
Theorem C66_table_bounded cf t0 es : N.of_nat (length (tbl (fst (run cf (start cf t0) es)))) <= N.max (c_max cf) 1.
Proof.
  assert (G : forall es st, N.of_nat (length (tbl st)) <= N.max (c_max cf) 1 -> N.of_nat (length (tbl (fst (run cf st es)))) <= N.max (c_max cf) 1).
  { clear. induction es as [|e es IH]; intros st H; cbn [run]; [exact H|]. destruct (step cf st e) as [s l] eqn:E.
    specialize (IH s). destruct (run cf s es) as [s2 l2]. cbn [fst] in *. apply IH.
    destruct e as [t p|t]; cbn [step] in E.
    - destruct (check cf st t p) as [s1 o] eqn:C. injection E as <- <-. unfold check in C.
      destruct (match c_global cf with Some l => try_admit (g st) t l | None => (g st, true) end) as [g' [|]]; [|injection C as <- <-; exact H].
      destruct (c_client cf) as [lc|]; [destruct p as [a|]|]; [|injection C as <- <-; exact H|injection C as <- <-; exact H].
      unfold client_admit in C. destruct (find (tbl st) (key cf a)).
      + destruct (try_admit b t lc) as [b' ok]. injection C as <- <-. cbn [tbl]. unfold put. rewrite map_length. exact H.
      + destruct (N.ltb_spec (N.of_nat (length (tbl st))) (N.max (c_max cf) 1)).
        * destruct (try_admit (full t lc) t lc) as [b' ok]. injection C as <- <-. cbn [tbl length]. lia.
        * injection C as <- <-. exact H.
    - injection E as <- <-. unfold gc. destruct (c_client cf) as [lc|]; [|exact H]. cbn [tbl].
      assert (F : forall P (q : table), (length (filter P q) <= length q)%nat).
      { clear. intros P q. induction q as [|y q IH]; cbn; [lia|]. destruct (P y); cbn; lia. }
      pose proof (F (fun p => negb (is_idle (snd p) t lc)) (tbl st)). lia. }
  apply G. cbn. lia.
Qed.

(** After a sweep only those clients are remembered that asked within the last [burst / rate] seconds. *)
Theorem C66_reclaimed cf l t0 es t : c_client cf = Some l ->
  forall k b, In (k, b) (tbl (fst (run cf (start cf t0) (es ++ [Sweep t])))) ->
  exists u a, In (Request u (Some a)) es /\ key cf a = k /\ rate l * (t - u) < burst l * NS.
Proof.
  intros El.
  assert (TA : forall b now b' ok, try_admit b now l = (b', ok) -> at_ b' = now).
  { intros b now b' ok. unfold try_admit. destruct (NS <=? replenished b now l); intros E; injection E as <- _; reflexivity. }
  assert (G : forall es st done, (forall k b, In (k, b) (tbl st) -> exists a, In (Request (at_ b) (Some a)) done /\ key cf a = k) ->
    forall k b, In (k, b) (tbl (fst (run cf st es))) -> exists a, In (Request (at_ b) (Some a)) (done ++ es) /\ key cf a = k).
  { clear - El TA. induction es as [|e es IH]; intros st dn H; cbn [run]; [rewrite app_nil_r; exact H|].
    destruct (step cf st e) as [s h] eqn:E. specialize (IH s (dn ++ [e])). destruct (run cf s es) as [s2 h2]. cbn [fst] in *.
    rewrite <- app_assoc in IH. cbn [app] in IH. apply IH. clear IH.
    assert (H' : forall k b, In (k, b) (tbl st) -> exists a, In (Request (at_ b) (Some a)) (dn ++ [e]) /\ key cf a = k).
    { intros k b I. destruct (H k b I) as [a [A1 A2]]. exists a. split; [apply in_or_app; auto|auto]. }
    destruct e as [u p|u]; cbn [step] in E.
    - destruct (check cf st u p) as [s1 o] eqn:C. injection E as <- <-. unfold check in C.
      destruct (match c_global cf with Some l => try_admit (g st) u l | None => (g st, true) end) as [g' [|]]; [|injection C as <- <-; exact H'].
      rewrite El in C. destruct p as [a|]; [|injection C as <- <-; exact H'].
      unfold client_admit in C. destruct (find (tbl st) (key cf a)) as [b0|] eqn:F.
      + destruct (try_admit b0 u l) as [b' ok] eqn:T. injection C as <- <-. cbn [tbl]. intros k b I. unfold put in I. apply in_map_iff in I.
        destruct I as [[k1 b1] [E I]]. cbn [fst] in E. destruct (addr_eqb k1 (key cf a)); [|injection E as <- <-; apply H'; exact I].
        injection E as <- <-. exists a. rewrite (TA _ _ _ _ T). split; [apply in_or_app; right; left; reflexivity|reflexivity].
      + destruct (N.of_nat (length (tbl st)) <? N.max (c_max cf) 1); [|injection C as <- <-; exact H'].
        destruct (try_admit (full u l) u l) as [b' ok] eqn:T. injection C as <- <-. cbn [tbl]. intros k b [I|I]; [|apply H'; exact I].
        injection I as <- <-. exists a. rewrite (TA _ _ _ _ T). split; [apply in_or_app; right; left; reflexivity|reflexivity].
    - injection E as <- <-. unfold gc. rewrite El. cbn [tbl]. intros k b I. apply filter_In in I. apply H'. apply I. }
  intros k b I. rewrite run_app in I. specialize (G es (start cf t0) []). destruct (run cf (start cf t0) es) as [s h]. cbn [run step fst] in *.
  unfold gc in I. rewrite El in I. cbn [tbl] in I. apply filter_In in I. destruct I as [I J]. cbn [snd] in J.
  destruct (G ltac:(intros ? ? []) k b I) as [a [A1 A2]]. exists (at_ b), a. split; [exact A1|]. split; [exact A2|].
  unfold is_idle, replenished in J. fold (capacity l). destruct (N.leb_spec (capacity l) (N.min (tok b + (t - at_ b) * rate l) (capacity l))) as [X|X]; [discriminate|].
  rewrite N.mul_comm. generalize dependent ((t - at_ b) * rate l). intros q X. lia.
Qed.
(** Two addresses share a bucket exactly if they have the configured leading bits in common; an IPv4 client is the same seen through
    IPv6. *)
Lemma mask_shift w p n : p <= w -> n < 2 ^ w -> mask w p n = n / 2 ^ (w - p) * 2 ^ (w - p).
Proof.
  intros Hp Hn. unfold mask. destruct (N.ltb_spec (w - p) w) as [L|L].
  - rewrite <- N.shiftr_div_pow2, <- N.shiftl_mul_pow2, <- N.land_ones. replace (2 ^ w - 1) with (N.ones w) by (rewrite N.ones_equiv, N.pred_sub; reflexivity).
    apply N.bits_inj. intros i. rewrite !N.land_spec. destruct (N.lt_ge_cases i (w - p)) as [I|I].
    + rewrite !N.shiftl_spec_low by lia. rewrite andb_false_l, andb_false_r. reflexivity.
    + rewrite !N.shiftl_spec_high' by lia. rewrite N.shiftr_spec'. replace (i - (w - p) + (w - p)) with i by lia.
      destruct (N.lt_ge_cases i w) as [I2|I2].
      * rewrite !N.ones_spec_low by lia. rewrite !andb_true_r. reflexivity.
      * rewrite (N.ones_spec_high w i) by lia. rewrite !andb_false_r. symmetry.
        destruct (N.eq_dec n 0) as [->|Nz]; [apply N.bits_0|]. apply N.bits_above_log2. apply N.log2_lt_pow2; [lia|].
        eapply N.lt_le_trans; [exact Hn|]. apply N.pow_le_mono_r; lia.
  - replace (w - p) with w by lia. rewrite N.land_0_r, N.div_small by auto. reflexivity.
Qed.
Theorem C66_one_bucket_per_client cf a b : c_v4 cf <= 32 -> c_v6 cf <= 128 -> addr_ok a -> addr_ok b ->
  (key cf a = key cf b <-> same_client (c_v4 cf) (c_v6 cf) a b).
Proof.
  intros H4 H6.
  assert (M : forall w p x y, p <= w -> x < 2 ^ w -> y < 2 ^ w -> (mask w p x = mask w p y <-> x / 2 ^ (w - p) = y / 2 ^ (w - p))).
  { intros w p x y Hp Hx Hy. rewrite !mask_shift by auto. split; [|congruence]. apply N.mul_cancel_r. apply N.pow_nonzero. discriminate. }
  assert (B : forall n, n mod 2 ^ 32 < 2 ^ 32) by (intros n; apply N.mod_lt; discriminate).
  unfold same_client, key, to_ipv4_mapped, addr_ok. destruct a as [x|x], b as [y|y]; cbn [v4_of]; intros Ha Hb;
    repeat match goal with |- context [if ?c then _ else _] => destruct c end;
    try (split; [discriminate|tauto]);
    (rewrite <- M by auto); split; intros E; [injection E; auto|congruence|injection E; auto|congruence|injection E; auto|congruence|injection E; auto|congruence|injection E; auto|congruence] || idtac.
Qed.
