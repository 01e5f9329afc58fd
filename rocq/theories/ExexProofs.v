(* C57 proofs, part 1: one ExEx inside a run, loss accounting, isolation, floor. *)
From Verif Require Import Util ExexModel ExexSpec.
Local Open Scope N_scope.

(* ---------- lists ---------- *)
Lemma nth_upd_same {A} (l : list A) i f : nth_error (upd l i f) i = option_map f (nth_error l i).
Proof. revert i; induction l as [|a l IH]; intros [|i]; cbn; auto. Qed.
Lemma nth_upd_other {A} (l : list A) i j f : j <> i -> nth_error (upd l j f) i = nth_error l i.
Proof. revert i j; induction l as [|a l IH]; intros [|i] [|j] H; cbn; auto; try congruence. Qed.
Lemma upd_length {A} (l : list A) i f : length (upd l i f) = length l.
Proof. revert i; induction l as [|a l IH]; intros [|i]; cbn; auto. Qed.
Lemma nth_fan_out ns hs i : nth_error (fold_left fan_out ns hs) i = option_map (fun h => fold_left send ns h) (nth_error hs i).
Proof.
  revert hs; induction ns as [|n ns IH]; intros hs; cbn [fold_left].
  - destruct (nth_error hs i); auto.
  - rewrite IH. unfold fan_out at 1. rewrite nth_error_map. destruct (nth_error hs i); auto.
Qed.

Lemma lossy_app a b a' b' : lossy a b -> lossy a' b' -> lossy (a ++ a') (b ++ b').
Proof. induction 1; intros H'; cbn; auto. - constructor; auto. - rewrite <- app_assoc. constructor; auto. Qed.
Lemma lossy_refl a : lossy a a.
Proof. induction a; constructor; auto. Qed.
Lemma got_app i a b : got i (a ++ b) = got i a ++ got i b.
Proof. unfold got. rewrite filter_app, map_app. auto. Qed.

(* ---------- the story ---------- *)
Lemma is_seg_in s : s <> [] -> In (seg_tip s) s /\ In (seg_first s) s.
Proof.
  intros H. split.
  - unfold seg_tip. destruct (exists_last H) as (l & a & ->). rewrite last_last. apply in_or_app; right; left; auto.
  - destruct s; [congruence|left; auto].
Qed.
Definition tip_ok (b : option N) : Prop := match b with Some x => x <= U64 | None => True end.
Lemma canon_story b new : tip_ok b -> (forall n, In n new -> n <= U64) ->
  forall r, story b (ICommit new :: r) = fst (canon_commit b new) ++ story (snd (canon_commit b new)) r /\
            tip_ok (snd (canon_commit b new)).
Proof.
  intros Hb Hn r. destruct new as [|x new]; [cbn; auto|].
  assert (Hne : x :: new <> []) by congruence. destruct (is_seg_in _ Hne) as [Ht Hf]. apply Hn in Ht, Hf.
  unfold canon_commit, canon_gap. set (s := x :: new) in *. cbn [story]. replace (match s with [] => story b r | _ :: _ => _ end) with
    (match b with None => NChain s :: story (Some (seg_tip s)) r
     | Some b0 => (if b0 + 1 <? seg_first s then [NLag (seg_first s - (b0 + 1))] else []) ++ NChain s :: story (Some (N.max b0 (seg_tip s))) r end)
    by reflexivity.
  destruct b as [b|]; cbn [fst snd].
  - split; [|cbn in *; lia]. unfold sat_add1. cbn in Hb.
    destruct (b + 1 <? seg_first s) eqn:E1, (N.min (b + 1) U64 <? seg_first s) eqn:E2; try lia.
    + replace (seg_first s - (b + 1)) with (seg_first s - b - 1) by lia. auto.
    + auto.
  - split; auto.
Qed.
Lemma route_story b i r : tip_ok b -> heights_u64 [i] ->
  story b (i :: r) = fst (route b i) ++ story (snd (route b i)) r /\ tip_ok (snd (route b i)).
Proof.
  intros Hb Hi. specialize (Hi i (or_introl eq_refl)).
  destruct i as [[c|m]|[c|m]|new|old new|]; cbn [story route fst snd app]; auto.
  - apply canon_story; auto.
  - pose proof (canon_story b new Hb Hi r) as [H1 H2]. split; auto.
Qed.

(* ---------- one handle ---------- *)
(* the loss invariant: a is everything announced so far, b everything received *)
Definition hinv (a b : list note) (h : hnd) : Prop :=
  exists a0 run, a = a0 ++ run /\ h_drop h = N.of_nat (length run) /\ lossy a0 (b ++ h_q h).

Lemma send_note_open h n : h_open (send_note h n) = h_open h.
Proof. unfold send_note, try_send. destruct (h_open h) eqn:E; cbn [negb]; [|auto]. destruct (length (h_q h) <? h_cap h)%nat; cbn; auto. Qed.
Lemma send_open h n : h_open (send h n) = h_open h.
Proof.
  unfold send, try_send. destruct (0 <? h_drop h); [|apply send_note_open]. destruct (h_open h) eqn:E; cbn [negb]; [|auto].
  destruct (length (h_q h) <? h_cap h)%nat; cbn; auto. rewrite send_note_open. cbn. auto.
Qed.
Lemma sends_open ns h : h_open (fold_left send ns h) = h_open h.
Proof. revert h; induction ns; intros h; cbn; auto. rewrite IHns, send_open. auto. Qed.
Lemma send_note_inv a b h n : h_open h = true -> h_drop h = 0 -> hinv a b h -> hinv (a ++ [n]) b (send_note h n).
Proof.
  intros Ho Hd (a0 & run & -> & H1 & H2). destruct run as [|x run]; [|cbn in *; lia]. rewrite app_nil_r.
  unfold send_note, try_send. rewrite Ho. cbn [negb]. destruct (length (h_q h) <? h_cap h)%nat.
  - exists (a0 ++ [n]), []. cbn. rewrite app_nil_r. split; auto. split; auto. rewrite app_assoc. apply lossy_app; auto. apply lossy_refl.
  - exists a0, [n]. cbn. split; auto. split; auto. rewrite Hd. reflexivity.
Qed.
Lemma send_inv a b h n : h_open h = true -> N.of_nat (length a) < U64 -> hinv a b h -> hinv (a ++ [n]) b (send h n).
Proof.
  intros Ho Hl Hi. unfold send. destruct (0 <? h_drop h) eqn:E; [|apply send_note_inv; auto; lia].
  destruct Hi as (a0 & run & -> & H1 & H2). unfold try_send. rewrite Ho. cbn [negb]. destruct (length (h_q h) <? h_cap h)%nat.
  - apply send_note_inv; auto. exists (a0 ++ run), []. cbn. rewrite app_nil_r. split; auto. split; auto. rewrite app_assoc. apply lossy_app; auto.
    rewrite <- (app_nil_r run) at 1. rewrite H1. constructor; [|constructor]. intros ->. cbn in *; lia.
  - exists a0, (run ++ [n]). cbn [set_drop h_drop h_q]. rewrite app_assoc. split; auto. split; auto. unfold sat_add1. rewrite app_length in Hl. rewrite app_length, H1. cbn [length]. lia.
Qed.
Lemma sends_inv ns a b h : h_open h = true -> N.of_nat (length (a ++ ns)) <= U64 -> hinv a b h -> hinv (a ++ ns) b (fold_left send ns h).
Proof.
  revert a h. induction ns as [|n ns IH]; intros a h Ho Hl Hi; cbn [fold_left].
  - rewrite app_nil_r; auto.
  - rewrite app_length in Hl. cbn [length] in Hl. replace (a ++ n :: ns) with ((a ++ [n]) ++ ns) by (rewrite <- app_assoc; auto). apply IH.
    + rewrite send_open; auto.
    + rewrite <- app_assoc, app_length. cbn [app length]. lia.
    + apply send_inv; auto. lia.
Qed.

(* a run from any state, seen by one handle *)
Lemma xrun_app s es es' : xrun s (es ++ es') = (fst (xrun s es) ++ fst (xrun (snd (xrun s es)) es'), snd (xrun (snd (xrun s es)) es')).
Proof.
  revert s; induction es as [|e es IH]; intros s; cbn [xrun app].
  - cbn [fst snd app]. destruct (xrun s es'); auto.
  - destruct (xstep s e) as [o s1]. rewrite IH. destruct (xrun s1 es) as [o2 s2]. cbn [fst snd]. rewrite app_assoc. auto.
Qed.
Lemma open_back s es i h : nth_error (x_hs (snd (xrun s es))) i = Some h -> h_open h = true ->
  exists h0, nth_error (x_hs s) i = Some h0 /\ h_open h0 = true.
Proof.
  revert s; induction es as [|e es IH]; intros s; cbn [xrun]; [eauto|].
  destruct (xstep s e) as [o s1] eqn:Es. destruct (xrun s1 es) as [o2 s2] eqn:Er. cbn [snd]. intros H1 H2.
  specialize (IH s1). rewrite Er in IH. destruct (IH H1 H2) as (h1 & G1 & G2). clear IH Er H1 H2.
  destruct e as [r|j|j|j x|j]; cbn [xstep] in Es.
  - destruct (x_run s); cbn [negb] in Es; [|injection Es as <- <-; eauto].
    assert (Hc : forall ns t, s1 = mk_xsys (fold_left fan_out ns (x_hs s)) (x_min s) t true -> exists h0, nth_error (x_hs s) i = Some h0 /\ h_open h0 = true).
    { intros ns t ->. cbn in G1. rewrite nth_fan_out in G1. destruct (nth_error (x_hs s) i) as [h0|]; [|discriminate G1]. cbn in G1. injection G1 as <-.
      rewrite sends_open in G2. eauto. }
    destruct r; try (destruct (route _ _) as [ns t]; injection Es as <- <-; eapply Hc; eauto). injection Es as <- <-. eauto.
  - destruct (x_run s); cbn [negb] in Es; [|injection Es as <- <-; eauto].
    destruct (nth_error (x_hs s) j) as [hj|] eqn:Ej; [|injection Es as <- <-; eauto]. destruct (h_ev hj) eqn:Ev; [injection Es as <- <-; eauto|].
    injection Es as <- <-. cbn [x_hs] in G1. destruct (Nat.eq_dec j i) as [->|Hn]; [|rewrite nth_upd_other in G1; eauto].
    rewrite nth_upd_same, Ej in G1. cbn in G1. injection G1 as <-. exists hj. split; auto. unfold take_event in G2. rewrite Ev in G2. auto.
  - destruct (nth_error (x_hs s) j) as [hj|] eqn:Ej; [|injection Es as <- <-; eauto].
    destruct (h_open hj) eqn:Eo; [|injection Es as <- <-; eauto]. destruct (h_q hj) eqn:Eq; [injection Es as <- <-; eauto|].
    injection Es as <- <-. cbn [x_hs] in G1. destruct (Nat.eq_dec j i) as [->|Hn]; [|rewrite nth_upd_other in G1; eauto]. eauto.
  - injection Es as <- <-. cbn [x_hs] in G1. destruct (Nat.eq_dec j i) as [->|Hn]; [|rewrite nth_upd_other in G1; eauto].
    rewrite nth_upd_same in G1. destruct (nth_error (x_hs s) i) as [h0|]; [|discriminate G1]. cbn in G1. injection G1 as <-. unfold report_h in G2.
    destruct (_ && _); eauto.
  - injection Es as <- <-. cbn [x_hs] in G1. destruct (Nat.eq_dec j i) as [->|Hn]; [|rewrite nth_upd_other in G1; eauto].
    rewrite nth_upd_same in G1. destruct (nth_error (x_hs s) i) as [h0|]; [|discriminate G1]. cbn in G1. injection G1 as <-. discriminate G2.
Qed.

Lemma got_one i j n : got i [(j, n)] = if Nat.eqb j i then [n] else [].
Proof. unfold got. cbn. destruct (Nat.eqb j i); auto. Qed.

(* the part of the story told by a run *)
Definition told (s : xsys) (es : list xev) : list note := if x_run s then story (x_tip s) (inputs es) else [].

Lemma run_inv s es i h h0 a b :
  nth_error (x_hs s) i = Some h0 -> h_open h0 = true -> tip_ok (x_tip s) -> (x_run s = true -> heights_u64 (inputs es)) -> hinv a b h0 ->
  N.of_nat (length (a ++ told s es)) <= U64 ->
  nth_error (x_hs (snd (xrun s es))) i = Some h -> h_open h = true ->
  hinv (a ++ told s es) (b ++ got i (fst (xrun s es))) h.
Proof.
  revert s h0 a b. induction es as [|e es IH]; intros s h0 a b H0 Ho Ht Hu Hi Hl H1 H2.
  { cbn in *. unfold told. cbn. replace (if x_run s then [] else []) with (@nil note) by (destruct (x_run s); auto). rewrite !app_nil_r. congruence. }
  cbn [xrun] in *. destruct (xstep s e) as [o s1] eqn:Es. destruct (xrun s1 es) as [o2 s2] eqn:Er. cbn [fst snd] in *.
  assert (Hback := open_back s1 es i h). rewrite Er in Hback. destruct (Hback H1 H2) as (h1 & G1 & G2). clear Hback.
  specialize (IH s1 h1). rewrite Er in IH. cbn [fst snd] in IH. rewrite got_app.
  (* steps that announce nothing *)
  assert (Hq : x_tip s1 = x_tip s -> told s (e :: es) = told s1 es -> (x_run s1 = true -> heights_u64 (inputs es)) -> hinv a (b ++ got i o) h1 ->
     hinv (a ++ told s (e :: es)) (b ++ got i o ++ got i o2) h).
  { intros E2 E3 E4 E5. rewrite E3 in *. rewrite app_assoc. apply IH; auto. congruence. }
  assert (Hn0 : forall x, h_drop x = h_drop h0 -> h_q x = h_q h0 -> hinv a (b ++ []) x).
  { intros x X1 X2. rewrite app_nil_r. destruct Hi as (a0 & run & A1 & A2 & A3). exists a0, run. rewrite X1, X2. auto. }
  destruct e as [r|j|j|j x|j]; cbn [xstep] in Es.
  - destruct (x_run s) eqn:Erun; cbn [negb] in Es.
    2:{ injection Es as <- <-. apply Hq; auto; [unfold told; rewrite Erun; auto|congruence|apply Hn0; congruence]. }
    assert (Hc : forall ns t, route (x_tip s) r = (ns, t) -> inputs (XIn r :: es) = r :: inputs es -> o = [] ->
       s1 = mk_xsys (fold_left fan_out ns (x_hs s)) (x_min s) t true -> hinv (a ++ told s (XIn r :: es)) (b ++ got i o ++ got i o2) h).
    { intros ns t Hr Hin -> E1. assert (Hu1 : heights_u64 [r]).
      { intros z [<-|[]]. apply (Hu eq_refl). rewrite Hin. left; auto. }
      destruct (route_story (x_tip s) r (inputs es) Ht Hu1) as [S1 S2]. rewrite Hr in S1, S2. cbn [fst snd] in S1, S2.
      assert (S3 : told s (XIn r :: es) = ns ++ told s1 es). { unfold told. rewrite Erun, Hin, S1. subst s1. cbn. auto. }
      rewrite S3 in *. cbn [app got filter map]. rewrite app_assoc. apply IH; auto.
      + subst s1. cbn. auto.
      + intros _ z Hz. apply (Hu eq_refl). rewrite Hin. right; auto.
      + assert (Hh : h1 = fold_left send ns h0). { subst s1. cbn in G1. rewrite nth_fan_out, H0 in G1. cbn in G1. congruence. }
        subst h1. apply sends_inv; auto. rewrite app_assoc, app_length in Hl. rewrite !app_length in *. lia.
      + rewrite <- app_assoc. auto. }
    destruct r; cbv iota beta in Es; try (match type of Es with context[route ?a ?b] => destruct (route a b) as [ns t] eqn:Hr end; injection Es as <- <-; eapply Hc; eauto).
    injection Es as <- <-. apply Hq; auto; [unfold told; rewrite Erun; auto|cbn; congruence|]. apply Hn0; cbn in G1; congruence.
  - assert (Hs : x_run s1 = x_run s /\ x_tip s1 = x_tip s /\ o = [] /\ (h_drop h1 = h_drop h0 /\ h_q h1 = h_q h0)).
    { destruct (x_run s) eqn:Erun; cbn [negb] in Es; [|injection Es as <- <-; repeat split; auto; congruence].
      destruct (nth_error (x_hs s) j) as [hj|] eqn:Ej; [|injection Es as <- <-; repeat split; auto; congruence].
      destruct (h_ev hj) eqn:Ev; [injection Es as <- <-; repeat split; auto; congruence|].
      injection Es as <- <-. cbn [x_hs x_run x_tip] in *. split; auto. split; auto. split; auto.
      destruct (Nat.eq_dec j i) as [->|Hn]; [|rewrite nth_upd_other in G1; auto; split; congruence].
      rewrite nth_upd_same, Ej in G1. cbn in G1. injection G1 as <-. unfold take_event. rewrite Ev. cbn. split; congruence. }
    destruct Hs as (E1 & E2 & -> & E3 & E4). apply Hq; auto; [unfold told; rewrite E1, E2; auto|rewrite E1; auto].
  - destruct (nth_error (x_hs s) j) as [hj|] eqn:Ej.
    2:{ injection Es as <- <-. apply Hq; auto; apply Hn0; congruence. }
    destruct (h_open hj) eqn:Eo.
    2:{ injection Es as <- <-. apply Hq; auto; apply Hn0; congruence. }
    destruct (h_q hj) as [|n q] eqn:Eq.
    { injection Es as <- <-. apply Hq; auto; apply Hn0; congruence. }
    injection Es as <- <-. cbn [x_hs] in G1. apply Hq; auto. rewrite got_one. destruct (Nat.eqb_spec j i) as [->|Hn].
    + rewrite nth_upd_same, Ej in G1. cbn in G1. injection G1 as <-. assert (hj = h0) by congruence. subst hj.
      destruct Hi as (a0 & run & A1 & A2 & A3). exists a0, run. cbn. split; auto. split; auto. rewrite Eq in *. cbn [tl]. rewrite <- app_assoc. auto.
    + rewrite nth_upd_other in G1; auto. apply Hn0; congruence.
  - injection Es as <- <-. cbn [x_hs] in G1. apply Hq; auto. apply Hn0; (destruct (Nat.eq_dec j i) as [->|Hn]; [|rewrite nth_upd_other in G1; auto; congruence]);
    rewrite nth_upd_same, H0 in G1; cbn in G1; injection G1 as <-; unfold report_h; destruct (_ && _); auto.
  - injection Es as <- <-. cbn [x_hs] in G1. apply Hq; auto. apply Hn0; (destruct (Nat.eq_dec j i) as [->|Hn]; [|rewrite nth_upd_other in G1; auto; congruence]);
    rewrite nth_upd_same, H0 in G1; cbn in G1; injection G1 as <-; discriminate G2.
Qed.
