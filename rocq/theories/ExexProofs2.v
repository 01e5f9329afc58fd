(* C57 proofs, part 2: one step as one ExEx sees it; no loss, isolation, the floor, stopping. *)
From Verif Require Import Util ExexModel ExexSpec ExexProofs.
Local Open Scope N_scope.

Definition hnotes (s : xsys) (e : xev) : list note :=
  match e with XIn IClosed => [] | XIn r => if x_run s then fst (route (x_tip s) r) else [] | _ => [] end.
Definition hstep (s : xsys) (i : nat) (e : xev) (h : hnd) : hnd :=
  match e with
  | XIn r => fold_left send (hnotes s e) h
  | XEvent j => if Nat.eqb j i && x_run s then take_event h else h
  | XRecv j => if Nat.eqb j i then (if h_open h then recv_h h else h) else h
  | XReport j x => if Nat.eqb j i then report_h x h else h
  | XDie j => if Nat.eqb j i then die_h h else h
  end.
Definition hout (i : nat) (e : xev) (h : hnd) : list note :=
  match e with XRecv j => if Nat.eqb j i then (match h_open h, h_q h with true, n :: _ => [n] | _, _ => [] end) else [] | _ => [] end.

Lemma nth_upd {A} (l : list A) i j f a : nth_error l i = Some a -> nth_error (upd l j f) i = Some (if Nat.eqb j i then f a else a).
Proof.
  intros H. destruct (Nat.eqb_spec j i) as [->|Hn]; [rewrite nth_upd_same, H; auto|rewrite nth_upd_other; auto].
Qed.
Lemma step_h s e i h : nth_error (x_hs s) i = Some h ->
  nth_error (x_hs (snd (xstep s e))) i = Some (hstep s i e h) /\ got i (fst (xstep s e)) = hout i e h.
Proof.
  intros H. destruct e as [r|j|j|j x|j]; cbn [xstep hstep hout hnotes].
  - destruct (x_run s) eqn:Er; cbn [negb].
    + destruct r; cbn [fst snd x_hs fold_left]; auto;
      match goal with |- context[route ?a ?b] => destruct (route a b) as [ns t] eqn:Hr end; cbn [fst snd x_hs]; rewrite nth_fan_out, H; auto.
    + destruct r; cbn; auto.
  - destruct (x_run s); cbn [negb]; [|rewrite andb_false_r; auto]. rewrite andb_true_r.
    destruct (nth_error (x_hs s) j) as [hj|] eqn:Ej.
    + destruct (h_ev hj) eqn:Ev; cbn [fst snd x_hs].
      * split; auto. destruct (Nat.eqb_spec j i) as [->|Hn]; auto. unfold take_event. replace hj with h in Ev by congruence. rewrite Ev. auto.
      * split; auto. apply nth_upd; auto.
    + cbn. split; auto. destruct (Nat.eqb_spec j i) as [->|Hn]; auto. congruence.
  - destruct (nth_error (x_hs s) j) as [hj|] eqn:Ej.
    + destruct (h_open hj) eqn:Eo.
      * destruct (h_q hj) as [|n q] eqn:Eq; cbn [fst snd x_hs].
        { split; auto. - destruct (Nat.eqb_spec j i) as [->|Hn]; auto. replace hj with h in * by congruence. rewrite Eo. rewrite H. destruct h; cbn in *; subst; auto.
          - destruct (Nat.eqb_spec j i) as [->|Hn]; auto. replace hj with h in * by congruence. rewrite Eo, Eq. auto. }
        { rewrite got_one. split.
          - erewrite nth_upd by eauto. destruct (Nat.eqb_spec j i) as [->|Hn]; auto. replace hj with h in * by congruence. rewrite Eo. auto.
          - destruct (Nat.eqb_spec j i) as [->|Hn]; auto. replace hj with h in * by congruence. rewrite Eo, Eq. auto. }
      * cbn [fst snd]. destruct (Nat.eqb_spec j i) as [->|Hn]; auto. replace hj with h in * by congruence. rewrite Eo. auto.
    + cbn [fst snd]. destruct (Nat.eqb_spec j i) as [->|Hn]; auto. congruence.
  - cbn [fst snd x_hs]. split; auto. apply nth_upd; auto.
  - cbn [fst snd x_hs]. split; auto. apply nth_upd; auto.
Qed.
Lemma step_none s e i : nth_error (x_hs s) i = None ->
  nth_error (x_hs (snd (xstep s e))) i = None /\ got i (fst (xstep s e)) = [].
Proof.
  intros H. assert (Hu : forall j f, nth_error (upd (x_hs s) j f) i = None).
  { intros j f. apply nth_error_None. rewrite upd_length. apply nth_error_None; auto. }
  destruct e as [r|j|j|j x|j]; cbn [xstep].
  - destruct (x_run s) eqn:Er; cbn [negb]; auto.
    destruct r; cbn [fst snd x_hs]; auto;
      match goal with |- context[route ?a ?b] => destruct (route a b) as [ns t] eqn:Hr end; cbn [fst snd x_hs]; rewrite nth_fan_out, H; auto.
  - destruct (x_run s); cbn [negb]; auto. destruct (nth_error (x_hs s) j) as [hj|]; auto. destruct (h_ev hj); cbn; auto.
  - destruct (nth_error (x_hs s) j) as [hj|] eqn:Ej; auto. destruct (h_open hj); auto. destruct (h_q hj); auto. cbn [fst snd x_hs].
    rewrite got_one. destruct (Nat.eqb_spec j i) as [->|Hn]; auto. congruence.
  - cbn. auto.
  - cbn. auto.
Qed.
(* the shared state moves only with the inputs *)
Lemma step_shared s e : x_tip (snd (xstep s e)) = (match e with XIn IClosed => x_tip s | XIn r => if x_run s then snd (route (x_tip s) r) else x_tip s | _ => x_tip s end) /\
  x_run (snd (xstep s e)) = (match e with XIn IClosed => false | _ => x_run s end).
Proof.
  destruct e as [r|j|j|j x|j]; cbn [xstep]; auto.
  - destruct (x_run s) eqn:Er; cbn [negb].
    + destruct r; cbn [fst snd x_tip x_run]; auto;
      match goal with |- context[route ?a ?b] => destruct (route a b) as [ns t] eqn:Hr end; cbn; auto.
    + destruct r; cbn [fst snd]; auto.
  - destruct (x_run s) eqn:Er; cbn [negb]; auto. destruct (nth_error (x_hs s) j) as [hj|]; auto. destruct (h_ev hj); cbn; auto.
  - destruct (nth_error (x_hs s) j) as [hj|] eqn:Ej; auto. destruct (h_open hj); auto. destruct (h_q hj); auto.
Qed.

(* ---------- isolation ---------- *)
Lemma isolated i es : forall s s', nth_error (x_hs s) i = nth_error (x_hs s') i -> x_tip s = x_tip s' -> x_run s = x_run s' ->
  got i (fst (xrun s es)) = got i (fst (xrun s' (filter (concerns i) es))) /\
  nth_error (x_hs (snd (xrun s es))) i = nth_error (x_hs (snd (xrun s' (filter (concerns i) es)))) i.
Proof.
  induction es as [|e es IH]; intros s s' H1 H2 H3; cbn [filter xrun fst snd]; auto.
  pose proof (step_shared s e) as [T1 T2]. destruct (xstep s e) as [o s1] eqn:Es. cbn [snd] in T1, T2.
  destruct (concerns i e) eqn:Ec.
  - cbn [xrun]. pose proof (step_shared s' e) as [T1' T2']. destruct (xstep s' e) as [o' s1'] eqn:Es'. cbn [snd] in T1', T2'.
    specialize (IH s1 s1'). destruct (xrun s1 es) as [p q]. destruct (xrun s1' (filter (concerns i) es)) as [p' q'] eqn:Er'. cbn [fst snd] in *. rewrite !got_app.
    assert (Hx : got i o = got i o' /\ nth_error (x_hs s1) i = nth_error (x_hs s1') i).
    { destruct (nth_error (x_hs s) i) as [h|] eqn:E.
      - destruct (step_h s e i h E) as [A1 A2]. destruct (step_h s' e i h (eq_sym H1)) as [B1 B2]. rewrite Es in A1, A2. rewrite Es' in B1, B2. cbn [fst snd] in *.
        rewrite A1, A2, B1, B2. split; auto. f_equal. destruct e as [[]| | | |]; cbn [hstep hnotes]; auto; rewrite ?H2, ?H3; auto.
      - destruct (step_none s e i E) as [A1 A2]. destruct (step_none s' e i (eq_sym H1)) as [B1 B2]. rewrite Es in A1, A2. rewrite Es' in B1, B2. cbn [fst snd] in *. split; congruence. }
    destruct Hx as [X1 X2]. assert (Y1 : x_tip s1 = x_tip s1') by (rewrite T1, T1', H2, H3; auto). assert (Y2 : x_run s1 = x_run s1') by (rewrite T2, T2', H3; auto).
    destruct (IH X2 Y1 Y2) as [I1 I2]. split; congruence.
  - assert (Hx : got i o = [] /\ nth_error (x_hs s1) i = nth_error (x_hs s') i /\ x_tip s1 = x_tip s' /\ x_run s1 = x_run s').
    { rewrite T1, T2. rewrite <- H1.
      assert (got i o = [] /\ nth_error (x_hs s1) i = nth_error (x_hs s) i).
      { destruct (nth_error (x_hs s) i) as [h|] eqn:E.
        - destruct (step_h s e i h E) as [A1 A2]. rewrite Es in A1, A2. cbn [fst snd] in *. rewrite A1, A2.
          destruct e as [r|j|j|j x|j]; cbn in Ec; cbn [hout hstep]; try rewrite Ec; auto. discriminate.
        - destruct (step_none s e i E) as [A1 A2]. rewrite Es in A1, A2. auto. }
      destruct e as [r|j|j|j x|j]; try discriminate Ec; intuition auto. }
    destruct Hx as (X1 & X2 & X3 & X4). specialize (IH s1 s' X2 X3 X4). destruct (xrun s1 es) as [p q]. cbn [fst snd] in *. rewrite got_app, X1. auto.
Qed.

(* ---------- no loss when the backlog stays within the capacity ---------- *)
Lemma send_note_cap h n : h_cap (send_note h n) = h_cap h.
Proof. unfold send_note, try_send. destruct (h_open h) eqn:E; cbn [negb]; [|auto]. destruct (length (h_q h) <? h_cap h)%nat; cbn; auto. Qed.
Lemma sends_room ns h : h_open h = true -> h_drop h = 0 -> (length (h_q h) + length ns <= h_cap h)%nat ->
  fold_left send ns h = mk_hnd (h_q h ++ ns) (h_cap h) true 0 (h_fin h) (h_ev h) (h_alive h).
Proof.
  revert h. induction ns as [|n ns IH]; intros h Ho Hd Hl; cbn [fold_left].
  - rewrite app_nil_r. destruct h; cbn in *; subst; auto.
  - cbn [length] in Hl. unfold send at 2. rewrite Hd. cbn [N.ltb N.compare]. unfold send_note, try_send. rewrite Ho. cbn [negb].
    assert (E : (length (h_q h) <? h_cap h)%nat = true) by (apply Nat.ltb_lt; lia). rewrite E. rewrite IH; cbn [h_q h_cap h_open h_drop h_fin h_ev h_alive]; auto.
    + rewrite <- app_assoc. auto.
    + rewrite app_length. cbn [length]. lia.
Qed.
Lemma told_step s e es : tip_ok (x_tip s) -> (x_run s = true -> heights_u64 (inputs (e :: es))) ->
  told s (e :: es) = hnotes s e ++ told (snd (xstep s e)) es /\ tip_ok (x_tip (snd (xstep s e))) /\
  (x_run (snd (xstep s e)) = true -> heights_u64 (inputs es)).
Proof.
  intros Ht Hu. unfold told. destruct (step_shared s e) as [-> ->]. destruct e as [r|j|j|j x|j]; cbn [inputs hnotes app] in *; auto.
  assert (Hc : forall r0, r0 = r -> r0 <> IClosed -> x_run s = true -> inputs (XIn r0 :: es) = r0 :: inputs es ->
     story (x_tip s) (r0 :: inputs es) = fst (route (x_tip s) r0) ++ story (snd (route (x_tip s) r0)) (inputs es) /\ tip_ok (snd (route (x_tip s) r0)) /\ heights_u64 (inputs es)).
  { intros r0 -> Hc Hr Hin. specialize (Hu Hr). cbn [inputs] in Hin. rewrite Hin in Hu. assert (Hu1 : heights_u64 [r]) by (intros z [<-|[]]; apply Hu; left; auto).
    destruct (route_story (x_tip s) r (inputs es) Ht Hu1) as [S1 S2]. split; auto. split; auto. intros z Hz. apply Hu. right; auto. }
  destruct r; try (destruct (x_run s) eqn:Er; cbn [app]; [destruct (Hc _ eq_refl) as (C1 & C2 & C3); auto; congruence|auto; split; auto; split; auto; discriminate]).
  destruct (x_run s); cbn; auto; split; auto; split; auto; discriminate.
Qed.

Lemma no_loss_run i es : forall s h0 a b,
  nth_error (x_hs s) i = Some h0 -> h_open h0 = true -> h_drop h0 = 0 -> a = b ++ h_q h0 -> tip_ok (x_tip s) -> (x_run s = true -> heights_u64 (inputs es)) ->
  ~ In (XDie i) es ->
  (forall p q, es = p ++ q -> length (a ++ told s p) <= length (b ++ got i (fst (xrun s p))) + h_cap h0)%nat ->
  exists h, nth_error (x_hs (snd (xrun s es))) i = Some h /\ h_open h = true /\ h_drop h = 0 /\
    a ++ told s es = (b ++ got i (fst (xrun s es))) ++ h_q h.
Proof.
  induction es as [|e es IH]; intros s h0 a b H0 Ho Hd Ha Ht Hu Hn Hr.
  { exists h0. cbn. split; auto. split; auto. split; auto. unfold told. cbn. replace (if x_run s then [] else []) with (@nil note) by (destruct (x_run s); auto). rewrite !app_nil_r. auto. }
  destruct (told_step s e es Ht Hu) as (T1 & T2 & T3). destruct (step_h s e i h0 H0) as [S1 S2]. cbn [xrun].
  destruct (xstep s e) as [o s1] eqn:Es. cbn [fst snd] in *.
  assert (Hstep : h_open (hstep s i e h0) = true /\ h_drop (hstep s i e h0) = 0 /\ h_cap (hstep s i e h0) = h_cap h0 /\
     a ++ hnotes s e = (b ++ got i o) ++ h_q (hstep s i e h0)).
  { rewrite S2. subst a. destruct e as [r|j|j|j x|j].
    - cbn [hstep]. rewrite sends_room; auto; cbn [h_open h_drop h_cap h_q hout].
      + split; auto. split; auto. split; auto. rewrite app_nil_r, app_assoc. auto.
      + specialize (Hr [XIn r] es eq_refl).
        assert (T0 : told s [XIn r] = hnotes s (XIn r)).
        { destruct (told_step s (XIn r) [] Ht) as (Q1 & _ & _).
          - intros Hrun. specialize (Hu Hrun). intros z Hz. apply Hu. cbn [inputs] in *. destruct r; cbn in Hz; try contradiction; destruct Hz as [<-|[]]; left; auto.
          - rewrite Q1. unfold told. cbn [inputs]. cbn [story]. match goal with |- context[if ?b then [] else []] => destruct b end; apply app_nil_r. }
        rewrite T0 in Hr. cbn [xrun] in Hr. rewrite Es in Hr. cbn [fst] in Hr. rewrite app_nil_r, S2 in Hr. cbn [hout] in Hr. rewrite app_nil_r, !app_length in Hr. lia.
    - cbn [hstep hnotes hout]. rewrite !app_nil_r. destruct (_ && _); auto. unfold take_event. destruct (h_ev h0); cbn; auto.
    - cbn [hstep hnotes hout]. rewrite Ho. destruct (Nat.eqb_spec j i) as [->|Hj]; [|rewrite !app_nil_r; auto].
      destruct (h_q h0) as [|n q] eqn:Eq; cbn [recv_h h_open h_drop h_cap h_q]; rewrite Eq; cbn [tl]; rewrite ?app_nil_r, <- ?app_assoc; auto.
    - cbn [hstep hnotes hout]. rewrite !app_nil_r. destruct (Nat.eqb j i); auto. unfold report_h. destruct (_ && _); auto.
    - cbn [hstep hnotes hout]. rewrite !app_nil_r. destruct (Nat.eqb_spec j i) as [->|]; auto. exfalso. apply Hn. left; auto. }
  destruct Hstep as (P1 & P2 & P3 & P4). rewrite T1, !app_assoc.
  specialize (IH s1 (hstep s i e h0) (a ++ hnotes s e) (b ++ got i o) S1 P1 P2 P4 T2 T3). rewrite P3 in IH.
  destruct (xrun s1 es) as [o2 s2] eqn:Er. cbn [fst snd] in *. rewrite got_app, app_assoc. apply IH.
  - intros Hi. apply Hn. right; auto.
  - intros p q ->. specialize (Hr (e :: p) q eq_refl). cbn [xrun] in Hr. rewrite Es in Hr. destruct (xrun s1 p) as [o3 s3]. cbn [fst snd] in *. rewrite got_app, app_assoc in Hr.
    destruct (told_step s e p Ht) as (Q1 & _ & _).
    { intros Hrun. specialize (Hu Hrun). clear -Hu. intros z Hz. apply Hu. clear Hu. revert Hz. change (e :: p ++ q) with ((e :: p) ++ q). generalize (e :: p). clear.
      induction l as [|a l IH]; cbn [inputs app]; [intros []|]. destruct a as [[]| | | |]; auto; cbn [In]; intuition auto. }
    rewrite Q1 in Hr. rewrite Es in Hr. cbn [snd] in Hr. rewrite app_assoc in Hr. exact Hr.
Qed.

(* ---------- the floor ---------- *)
Lemma fold_min hs : forall acc m, min_fold acc hs = Some (Some m) ->
  (forall h, In h hs -> exists x, h_fin h = Some x /\ m <= x) /\ (forall a, acc = Some a -> m <= a) /\
  (acc = Some m \/ exists h, In h hs /\ h_fin h = Some m).
Proof.
  induction hs as [|h hs IH]; intros acc m; cbn [min_fold].
  - intros [= ->]. split; [intros h []|]. split; [|auto]. intros a [= ->]. lia.
  - destruct (h_fin h) as [x|] eqn:Ef; [|discriminate]. intros H. apply IH in H. destruct H as (A & B & C).
    specialize (B _ eq_refl). split; [|split].
    + intros k [<-|Hk]; [|auto]. exists x. split; auto. destruct acc; lia.
    + intros a ->. lia.
    + destruct C as [C|(k & K1 & K2)]; [|right; exists k; split; [right|]; auto]. injection C as C. destruct acc as [a|].
      * destruct (N.min_spec a x) as [[_ E]|[_ E]]; rewrite E in C; subst; [left; auto|right; exists h; split; [left|]; auto].
      * subst. right. exists h. split; [left|]; auto.
Qed.
Lemma fold_min_some hs : forall acc, (forall h, In h hs -> exists x, h_fin h = Some x) -> exists o, min_fold acc hs = Some o /\ (acc <> None \/ hs <> [] -> o <> None).
Proof.
  induction hs as [|h hs IH]; intros acc H; cbn [min_fold].
  - exists acc. split; auto. intros [?|?]; congruence.
  - destruct (H h (or_introl eq_refl)) as [x ->]. destruct (IH (Some (match acc with Some a => N.min a x | None => x end))) as (o & O1 & O2).
    + intros k Hk. apply H. right; auto.
    + exists o. split; auto. intros _. apply O2. left. congruence.
Qed.
Lemma fold_min_none hs : forall acc h, In h hs -> h_fin h = None -> min_fold acc hs = None.
Proof.
  induction hs as [|k hs IH]; intros acc h Hi Hf; cbn [min_fold]; [destruct Hi|]. destruct Hi as [<-|Hi].
  - rewrite Hf. auto.
  - destruct (h_fin k); auto. eapply IH; eauto.
Qed.

Definition floor_inv (s : xsys) : Prop := x_min s = recompute_min (x_hs s).
Lemma min_fold_ext hs hs' : map h_fin hs = map h_fin hs' -> forall acc, min_fold acc hs = min_fold acc hs'.
Proof.
  revert hs'; induction hs as [|h hs IH]; intros [|h' hs'] H acc; try discriminate; cbn [min_fold]; auto.
  cbn in H. injection H as H1 H2. rewrite H1. destruct (h_fin h'); auto.
Qed.
Lemma recompute_ext hs hs' : map h_fin hs = map h_fin hs' -> recompute_min hs = recompute_min hs'.
Proof. intros H. unfold recompute_min. rewrite (min_fold_ext _ _ H). auto. Qed.
Lemma send_fin h n : h_fin (send h n) = h_fin h /\ h_ev (send h n) = h_ev h /\ h_alive (send h n) = h_alive h.
Proof.
  assert (Hn : forall h n, h_fin (send_note h n) = h_fin h /\ h_ev (send_note h n) = h_ev h /\ h_alive (send_note h n) = h_alive h).
  { clear. intros h n. unfold send_note, try_send. destruct (h_open h) eqn:E; cbn [negb]; [|auto]. destruct (length (h_q h) <? h_cap h)%nat; cbn; auto. }
  unfold send. destruct (0 <? h_drop h); [|apply Hn]. unfold try_send. destruct (h_open h) eqn:E; cbn [negb]; [|auto].
  destruct (length (h_q h) <? h_cap h)%nat; [|cbn; auto]. match goal with |- context[send_note ?a ?b] => destruct (Hn a b) as (A & B & C) end.
  rewrite A, B, C. cbn. auto.
Qed.
Lemma sends_fin ns h : h_fin (fold_left send ns h) = h_fin h /\ h_ev (fold_left send ns h) = h_ev h /\ h_alive (fold_left send ns h) = h_alive h.
Proof. revert h. induction ns as [|n ns IH]; intros h; cbn [fold_left]; auto. destruct (IH (send h n)) as (A & B & C). destruct (send_fin h n) as (D & F & G). repeat split; congruence. Qed.
Lemma map_upd_fin l j f : (forall h, h_fin (f h) = h_fin h) -> map h_fin (upd l j f) = map h_fin l.
Proof. intros H. revert j; induction l as [|a l IH]; intros [|j]; cbn; auto; [rewrite H; auto|rewrite IH; auto]. Qed.
Lemma map_fan_fin ns hs : map h_fin (fold_left fan_out ns hs) = map h_fin hs.
Proof.
  revert hs. induction ns as [|n ns IH]; intros hs; cbn [fold_left]; auto. rewrite IH. unfold fan_out. rewrite map_map. apply map_ext. intros h. apply send_fin.
Qed.
Lemma xstep_floor s e : floor_inv s -> floor_inv (snd (xstep s e)).
Proof.
  unfold floor_inv. intros H. destruct e as [r|j|j|j x|j]; cbn [xstep].
  - destruct (x_run s); cbn [negb]; auto. destruct r; cbn [snd x_min x_hs]; auto;
      match goal with |- context[route ?a ?b] => destruct (route a b) as [ns t] eqn:Hr end; cbn [fst snd x_hs x_min]; rewrite H; apply recompute_ext; rewrite map_fan_fin; auto.
  - destruct (x_run s); cbn [negb]; auto. destruct (nth_error (x_hs s) j) as [hj|]; auto. destruct (h_ev hj); cbn; auto.
  - destruct (nth_error (x_hs s) j) as [hj|] eqn:Ej; auto. destruct (h_open hj); auto. destruct (h_q hj); auto. cbn [snd x_min x_hs].
    rewrite H. apply recompute_ext. rewrite map_upd_fin; auto.
  - cbn [snd x_min x_hs]. rewrite H. apply recompute_ext. rewrite map_upd_fin; auto. intros h. unfold report_h. destruct (_ && _); auto.
  - cbn [snd x_min x_hs]. rewrite H. apply recompute_ext. rewrite map_upd_fin; auto.
Qed.
Lemma new_floor caps : floor_inv (xsys_new caps).
Proof. unfold floor_inv. cbn. destruct caps; auto. Qed.
Lemma xrun_floor es : forall s, floor_inv s -> floor_inv (snd (xrun s es)).
Proof.
  induction es as [|e es IH]; intros s H; cbn [xrun]; auto. apply (xstep_floor s e) in H. destruct (xstep s e) as [o s1]. cbn [snd] in H.
  specialize (IH s1 H). destruct (xrun s1 es); auto.
Qed.
Lemma xstep_len s e : length (x_hs (snd (xstep s e))) = length (x_hs s).
Proof.
  assert (Hf : forall ns hs, length (fold_left fan_out ns hs) = length hs).
  { induction ns as [|n ns IH]; intros hs; cbn [fold_left]; auto. rewrite IH. unfold fan_out. apply map_length. }
  destruct e as [r|j|j|j x|j]; cbn [xstep].
  - destruct (x_run s); cbn [negb]; auto. destruct r; cbn [snd x_min x_hs]; auto;
      match goal with |- context[route ?a ?b] => destruct (route a b) as [ns t] eqn:Hr end; cbn [fst snd x_hs x_min]; auto.
  - destruct (x_run s); cbn [negb]; auto. destruct (nth_error (x_hs s) j) as [hj|]; auto. destruct (h_ev hj); cbn; auto. apply upd_length.
  - destruct (nth_error (x_hs s) j) as [hj|] eqn:Ej; auto. destruct (h_open hj); auto. destruct (h_q hj); auto. cbn [snd x_min x_hs]. apply upd_length.
  - cbn. apply upd_length.
  - cbn. apply upd_length.
Qed.
Lemma xrun_len es : forall s, length (x_hs (snd (xrun s es))) = length (x_hs s).
Proof.
  induction es as [|e es IH]; intros s; cbn [xrun]; auto. pose proof (xstep_len s e) as H. destruct (xstep s e) as [o s1]. cbn [snd] in H.
  specialize (IH s1). destruct (xrun s1 es); cbn [snd] in *. congruence.
Qed.

(* taken and waiting reports are among the reports made *)
Lemma run_fin i es : forall s h0, nth_error (x_hs s) i = Some h0 ->
  exists h, nth_error (x_hs (snd (xrun s es))) i = Some h /\
    (forall x, h_fin h = Some x -> h_fin h0 = Some x \/ In x (h_ev h0) \/ In x (reports i es)) /\
    (forall x, In x (h_ev h) -> In x (h_ev h0) \/ In x (reports i es)).
Proof.
  induction es as [|e es IH]; intros s h0 H0; cbn [xrun].
  { exists h0. cbn. auto. }
  destruct (step_h s e i h0 H0) as [S1 _]. destruct (xstep s e) as [o s1] eqn:Es. cbn [snd] in S1. destruct (IH _ _ S1) as (h & A & B & C).
  destruct (xrun s1 es) as [o2 s2]. cbn [snd] in *. exists h. split; auto.
  assert (Hp : (forall x, h_fin (hstep s i e h0) = Some x -> h_fin h0 = Some x \/ In x (h_ev h0)) /\
               (forall x, In x (h_ev (hstep s i e h0)) -> In x (h_ev h0) \/ In x (reports i [e]))).
  { destruct e as [r|j|j|j x|j]; cbn [hstep].
    - destruct (sends_fin (hnotes s (XIn r)) h0) as (F1 & F2 & _). rewrite F1, F2. auto.
    - destruct (_ && _); auto. unfold take_event. destruct (h_ev h0) as [|y l] eqn:Ev; cbn [h_fin h_ev]; [rewrite Ev; auto|].
      split; [intros x [= ->]; right; left; auto|intros x Hx; left; right; auto].
    - destruct (Nat.eqb j i); auto. destruct (h_open h0); auto.
    - cbn [reports flat_map]. destruct (Nat.eqb j i); auto. unfold report_h. destruct (_ && _); auto. cbn [h_fin h_ev]. split; auto.
      intros y Hy. apply in_app_or in Hy. destruct Hy as [Hy|[<-|[]]]; auto. right. left; auto.
    - destruct (Nat.eqb j i); auto. }
  destruct Hp as [P1 P2].
  assert (Hr : forall x, In x (reports i (e :: es)) <-> In x (reports i [e]) \/ In x (reports i es)).
  { intros x. unfold reports. cbn [flat_map]. rewrite app_nil_r, in_app_iff. tauto. }
  split; intros x Hx; rewrite Hr.
  - apply B in Hx. destruct Hx as [Hx|[Hx|Hx]]; [apply P1 in Hx; tauto|apply P2 in Hx; tauto|auto].
  - apply C in Hx. destruct Hx as [Hx|Hx]; [apply P2 in Hx; tauto|auto].
Qed.

Lemma run_stopped es : forall s, x_run (snd (xrun s es)) = true <-> x_run s = true /\ ~ stopped es.
Proof.
  unfold stopped. induction es as [|e es IH]; intros s; cbn [xrun].
  - cbn. tauto.
  - destruct (step_shared s e) as [_ T]. destruct (xstep s e) as [o s1]. cbn [snd] in T. specialize (IH s1). destruct (xrun s1 es) as [o2 s2]. cbn [snd] in *.
    rewrite IH, T. destruct e as [[]| | | |]; cbn [In]; split; intuition (try discriminate; auto).
Qed.
