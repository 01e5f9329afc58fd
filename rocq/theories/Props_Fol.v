(** C44: a node that follows consensus without voting saves and executes exactly the agreed outputs,
    one after the other. *)
From Verif Require Import Util OutModel OutSpec OutProofs FolModel FolSpec FolProofs.
Local Open Scope nat_scope.

Section C44.
Variable bd : N -> N.
Variable hd : N -> subdag -> N -> N.
Variable addr : N -> N -> option N.
Variable cap : N -> nat.
Variable H0 : chdr.
Variable T : N -> output.
Notation step := (step bd hd addr cap H0).
Notation run := (run bd hd addr cap H0).
Notation good := (good_history bd hd addr cap H0 T).

Lemma good_app a : forall s b, good s (a ++ b) <-> good s a /\ good (fst (run s a)) b.
Proof.
  induction a as [|e a IH]; intros s b; [simpl; tauto|]. cbn [app]. rewrite run_cons. cbn [fst].
  change (good s (e :: a ++ b)) with (good_event bd hd addr T s e /\ good (fst (step s e)) (a ++ b)).
  change (good s (e :: a)) with (good_event bd hd addr T s e /\ good (fst (step s e)) a). rewrite IH. tauto.
Qed.

Lemma reach (Ch : chain bd hd addr H0 T) s0 es : booted T s0 -> good s0 es -> inv hd T (fst (run s0 es)).
Proof. intros B G. apply (inv_run bd hd addr cap H0 T Ch); auto. apply inv_booted; auto. Qed.
Lemma reach_queue (Ch : chain bd hd addr H0 T) es : forall s, inv hd T s -> queue T s -> good s es -> Forall calm es -> queue T (fst (run s es)).
Proof.
  induction es as [|e t IH]; intros s I Q G Cm; [exact Q|]. destruct G as [G1 G2]. inversion Cm; subst. rewrite run_cons. cbn [fst].
  apply IH; auto; [eapply inv_step; eauto|eapply queue_step; eauto].
Qed.

(** In order and without a gap.  After any good history (crashes included) with no message lost in the
    channel, whatever the node does until it next dies: the outputs it saves are the next ones of
    the chain, each once. *)
Theorem C44_saved_in_order : chain bd hd addr H0 T -> forall s0 es0 es, booted T s0 -> good s0 (es0 ++ es) ->
  Forall calm (es0 ++ es) -> Forall no_crash es ->
  let s := fst (run s0 es0) in
  exists k, snd (run s es) = from_on T (f_latest s + 1) k /\ f_latest (fst (run s es)) = (f_latest s + N.of_nat k)%N.
Proof.
  intros Ch s0 es0 es B G Cm Nc s. apply good_app in G. destruct G as [G0 G1]. apply Forall_app in Cm. destruct Cm as [C0 C1].
  apply (run_in_order bd hd addr cap H0 T Ch); auto; [apply reach; auto|].
  apply (reach_queue Ch); auto; [apply inv_booted; auto|apply queue_booted; auto].
Qed.

(** None of the follower's tasks ends with an error. *)
Theorem C44_no_error : chain bd hd addr H0 T -> forall s0 es, booted T s0 -> good s0 es -> Forall calm es -> f_err (fst (run s0 es)) = false.
Proof. intros Ch s0 es B G Cm. apply (run_no_error bd hd addr cap H0 T Ch); auto; [apply inv_booted; auto|apply queue_booted; auto]. Qed.

(** Even when the channel loses messages or execution fails: everything saved is a true output, the
    numbers strictly increase from the last saved one. *)
Theorem C44_saved_true_and_increasing : chain bd hd addr H0 T -> forall s0 es0 es, booted T s0 -> good s0 (es0 ++ es) -> Forall no_crash es ->
  let s := fst (run s0 es0) in
  exists ns, snd (run s es) = map T ns /\ StronglySorted N.lt (f_latest s :: ns) /\ f_latest (fst (run s es)) = last ns (f_latest s).
Proof.
  intros Ch s0 es0 es B G Nc s. apply good_app in G. destruct G as [G0 G1].
  apply (run_any bd hd addr cap H0 T Ch); auto. apply reach; auto.
Qed.

(** Nothing false is ever stored or announced: cache, packs and tip are the chain's. *)
Theorem C44_stored_true : chain bd hd addr H0 T -> forall s0 es, booted T s0 -> good s0 es ->
  let s := fst (run s0 es) in
  (forall n o, cget n (f_cache s) = Some o -> o = T n) /\ (forall n o, local s n = Some o -> o = T n) /\
  (forall h, f_tip s = Some h -> h = header_of (T (ch_num h))).
Proof.
  intros Ch s0 es B G s. pose proof (reach Ch s0 es B G) as I. split; [|split].
  - intros n o H. apply I, cget_in, H.
  - intros n o H. eapply local_true; eauto.
  - intros h H. apply I; auto.
Qed.

(** The channel only ever carries outputs linked to the header before them, whatever the cache and
    the packs contain: parent digest and number are checked (no collision of the header digest). *)
Theorem C44_drained_is_linked : forall s seen ok t o, f_strm s = Some t -> f_chan (drain hd s seen ok) = f_chan s ++ [o] ->
  (forall p n, hd p (out_sub o) n = digest_of hd (header_of o) -> p = out_parent o /\ n = out_num o) ->
  out_parent o = digest_of hd (s_last t) /\ out_num o = (ch_num (s_last t) + 1)%N /\
  (f_latest s < out_num o <= ch_num (s_target t))%N /\ (sd_epoch (out_sub o) <= s_epoch t)%N /\
  exists t', f_strm (drain hd s seen ok) = Some t' /\ s_last t' = header_of o.
Proof.
  intros s seen ok t o St D Inj.
  assert (No : forall (l : list output) x, l <> l ++ [x]) by (intros l x E; apply (f_equal (@length _)) in E; rewrite app_length in E; simpl in E; lia).
  unfold drain in *. rewrite St in *. destruct (_ <=? _)%N eqn:Tg; [exfalso; eapply No; eauto|]. apply N.leb_gt in Tg.
  destruct (match cget _ _ with Some _ => _ | None => _ end) as [[x b]|]; [|exfalso; eapply No; eauto].
  destruct (_ <? sd_epoch _)%N eqn:Ep; [exfalso; eapply No; eauto|]. apply N.ltb_ge in Ep.
  destruct (negb _) eqn:Dg; [exfalso; eapply (No (f_chan s)); destruct b; eauto|].
  apply negb_false_iff, N.eqb_eq in Dg.
  destruct (out_num x <=? f_latest s)%N eqn:La; [exfalso; eapply (No (f_chan s)); destruct b; eauto|]. apply N.leb_gt in La.
  destruct ok; [|exfalso; eapply (No (f_chan s)); destruct b; eauto].
  assert (x = o).
  { assert (E : f_chan s ++ [x] = f_chan s ++ [o]) by (destruct b; exact D). apply app_inv_head in E. congruence. }
  subst x. destruct (Inj _ _ Dg) as [E1 E2]. split; [auto|]. split; [auto|]. split; [lia|]. split; [auto|]. eexists. split; reflexivity.
Qed.

(** Catching up: if every output up to the target is in the cache or a local pack and belongs to this
    epoch, then draining and saving reach the target. *)
Theorem C44_catches_up : chain bd hd addr H0 T -> forall s0 es0 t, booted T s0 -> good s0 es0 -> Forall calm es0 ->
  let s := fst (run s0 es0) in
  f_strm s = Some t -> f_chan s = [] -> (ch_num (s_last t) <= f_latest s <= ch_num (s_target t))%N ->
  (forall n, (ch_num (s_last t) < n <= ch_num (s_target t))%N -> exists o, cget n (f_cache s) = Some o \/ local s n = Some o) ->
  (sd_epoch (out_sub (T (ch_num (s_target t)))) <= f_epoch s)%N ->
  exists es, Forall calm es /\ Forall no_crash es /\ good s es /\ f_latest (fst (run s es)) = ch_num (s_target t).
Proof.
  intros Ch s0 es0 t B G Cm s St Cn Le Av Ep. apply (progress bd hd addr cap H0 T Ch); auto; [apply reach; auto|].
  apply (reach_queue Ch); auto; [apply inv_booted; auto|apply queue_booted; auto].
Qed.

(** Downloading: a walk at height [num] whose peers answer the chain's outputs puts every height it
    passes into the cache and goes on below, until it meets its floor. *)
Theorem C44_walk_fills : chain bd hd addr H0 T -> forall s0 es0 i w num stop k c, booted T s0 -> good s0 es0 ->
  let s := fst (run s0 es0) in
  nth_error (f_walks s) i = Some w -> w_job w = Walking num (digest_at hd T num) stop ->
  (N.of_nat k < num)%N -> (stop <= num - N.of_nat k)%N ->
  (forall n, (num - N.of_nat k <= n <= num)%N -> local s n = None /\
     output_for bd (addr (c n)) (out_sub (T n)) (out_parent (T n)) (out_num (T n)) (T n) /\ one_batch_per_digest bd (T n) /\
     length (batch_set (out_sub (T n))) <= cap (c n)) ->
  let s' := fst (run s (map (fun j => let n := (num - N.of_nat j)%N in Walk i true (Some (c n, write_output bd (T n)))) (seq 0 (S k)))) in
  (forall n, cget n (f_cache s') = if ((num - N.of_nat k <=? n) && (n <=? num))%N then Some (T n) else cget n (f_cache s)) /\
  exists w', f_walks s' = (if (num - N.of_nat k - 1 <? stop)%N then remove_nth i (f_walks s) else replace_nth i w' (f_walks s)) /\
    w_floor w' = w_floor w /\ w_ceil w' = w_ceil w /\ w_job w' = Walking (num - N.of_nat k - 1) (digest_at hd T (num - N.of_nat k - 1)) stop.
Proof.
  intros Ch s0 es0 i w num stop k c B G s W J Hk Hs Hl s'.
  destruct (walk_down bd hd addr cap H0 T Ch c i k s w num stop) as [_ [_ [R3 R4]]]; auto. apply reach; auto.
Qed.
(** A walk standing on a height a local pack holds is over. *)
Theorem C44_walk_stops : forall s i w num hash stop a o, nth_error (f_walks s) i = Some w -> w_job w = Walking num hash stop ->
  local s num = Some o -> fst (step s (Walk i true a)) = set_walks s (remove_nth i (f_walks s)).
Proof. intros s i w num hash stop a o W J L. cbn [FolModel.step fst]. unfold walk_step. rewrite W, J, L. reflexivity. Qed.

(** A gap is left to the running walks exactly when they cover all of it together. *)
Theorem C44_gap_covered_exact : forall rs floor ceil, (floor <= ceil)%N ->
  (covered rs floor ceil = true <-> forall n, (floor <= n <= ceil)%N -> exists r, In r rs /\ (fst r <= n <= snd r)%N).
Proof. exact covered_spec. Qed.
Theorem C44_gap_filled : forall s num hash floor, f_gap s = Some (num, hash, floor) -> (floor <= num)%N ->
  let s' := fst (step s FillGap) in
  ((exists n, (floor <= n <= num)%N /\ forall w, In w (f_walks s) -> ~ (w_floor w <= n <= w_ceil w)%N) ->
   f_walks s' = f_walks s ++ [{| w_floor := floor; w_ceil := num; w_job := Walking num hash floor |}]) /\
  (forall n, (floor <= n <= num)%N -> exists w, In w (f_walks s') /\ (w_floor w <= n <= w_ceil w)%N).
Proof.
  intros s num hash floor G Hf s'. subst s'. cbn [FolModel.step fst]. unfold fill_gap. rewrite G.
  assert (E : (num <? floor)%N = false) by (apply N.ltb_ge; auto). rewrite E.
  assert (Rg : forall r, In r (ranges s) <-> exists w, In w (f_walks s) /\ r = (w_floor w, w_ceil w)).
  { intros r. unfold ranges. rewrite in_map_iff. split; intros [w [A B]]; exists w; auto. }
  destruct (covered (ranges s) floor num) eqn:C.
  - rewrite covered_spec in C by auto. split.
    + intros [n [Hn Nw]]. destruct (C n Hn) as [r [R1 R2]]. apply Rg in R1. destruct R1 as [w [Hw ->]]. exfalso. apply (Nw w Hw). exact R2.
    + intros n Hn. destruct (C n Hn) as [r [R1 R2]]. apply Rg in R1. destruct R1 as [w [Hw ->]]. exists w. auto.
  - unfold start_walk. rewrite E. cbn [set_walks f_walks]. split; [auto|]. intros n Hn. eexists. split; [apply in_app_iff; right; left; reflexivity|]. simpl. auto.
Qed.

(** A stalled stream asks for everything it is missing: after the request has been served, every height
    from the next one to the target is being downloaded. *)
Theorem C44_stall_asks_for_all : forall s t, f_strm s = Some t -> (ch_num (s_last t) < ch_num (s_target t))%N ->
  let s' := fst (run s [Stall; FillGap]) in
  forall n, (ch_num (s_last t) < n <= ch_num (s_target t))%N -> exists w, In w (f_walks s') /\ (w_floor w <= n <= w_ceil w)%N.
Proof.
  intros s t St Lt s' n Hn. subst s'. rewrite !run_cons. cbn [fst FolModel.run]. cbn [FolModel.step fst]. rewrite St.
  assert (E : (ch_num (s_last t) <? ch_num (s_target t))%N = true) by (apply N.ltb_lt; auto). rewrite E.
  set (s1 := set_gap s _).
  destruct (C44_gap_filled s1 (ch_num (s_target t)) (digest_of hd (s_target t)) (ch_num (s_last t) + 1)%N eq_refl ltac:(lia)) as [_ H].
  apply H. lia.
Qed.

(** Refuted: a walk always ends.  Below the first output there is no pack to stop at: a walk with floor
    zero stands at height 0 for ever if no peer answers for it, and every gap under its ceiling is
    then left to it. *)
Theorem C44_walk_to_zero_waits : forall s i w h stop, nth_error (f_walks s) i = Some w -> w_job w = Walking 0 h stop ->
  local s 0 = None -> cget 0 (f_cache s) = None ->
  (forall es, Forall (fun e => exists seen, e = Walk i seen None) es -> run s es = (s, [])) /\
  (forall num hash floor, (w_floor w <= floor <= num)%N -> (num <= w_ceil w)%N -> f_gap s = Some (num, hash, floor) -> fst (step s FillGap) = s).
Proof.
  intros s i w h stop W J L C. split.
  - induction es as [|e t IH]; intros F; auto. inversion F as [|? ? [seen ->] Ft]; subst. rewrite run_cons.
    cbn [FolModel.step fst snd]. unfold walk_step. rewrite W, J, L, C.
    replace (if seen then false else false) with false by (destruct seen; auto). rewrite (IH Ft). auto.
  - intros num hash floor Hf Hn G. cbn [FolModel.step fst]. unfold fill_gap. rewrite G. destruct (num <? floor)%N; auto.
    assert (Cv : covered (ranges s) floor num = true).
    { apply covered_spec; [lia|]. intros n Hr. exists (w_floor w, w_ceil w). simpl. split; [|lia].
      apply in_map_iff. exists w. split; auto. eapply nth_error_In; eauto. }
    rewrite Cv. auto.
Qed.
End C44.

(* ---------- a concrete chain ---------- *)
Definition zbd (b : N) : N := b.
Definition zhd (_ : N) (_ : subdag) (n : N) : N := (n + 1000)%N.
Definition zep (n : N) : N := if (n <=? 3)%N then 0%N else 1%N.
Definition zsub (n : N) : subdag :=
  {| sd_hdrs := if (n =? 0)%N then [] else [{| oh_author := 7; oh_payload := [(n + 10)%N] |}]; sd_epoch := zep n; sd_ts := n; sd_id := n |}.
Definition zT (a : N -> N) (n : N) : output :=
  {| out_sub := zsub n; out_parent := if (n =? 0)%N then 0%N else (n + 999)%N; out_num := n;
     out_digests := if (n =? 0)%N then [] else [(n + 10)%N];
     out_batches := if (n =? 0)%N then [] else [{| cb_addr := a (zep n); cb_batches := [(n + 10)%N] |}] |}.
Definition zaddr (a : N -> N) (e author : N) : option N := if (author =? 7)%N then Some (a e) else None.
Definition zH0 : chdr := {| ch_parent := 0; ch_sub := zsub 0; ch_num := 0 |}.
Definition zcap (_ : N) : nat := 10.

Lemma zchain a : chain zbd zhd (zaddr a) zH0 (zT a).
Proof.
  split; [reflexivity|]. split; [reflexivity|]. split.
  { intros n. unfold digest_at, digest_of, zhd, header_of; simpl. destruct (n + 1 =? 0)%N eqn:E; [apply N.eqb_eq in E; lia|]. lia. }
  split.
  { intros n. unfold output_for, epoch_of, named, zaddr; simpl. destruct (n =? 0)%N; simpl.
    - refine (conj eq_refl (conj eq_refl (conj eq_refl (conj eq_refl (conj _ _))))); [auto|intros X; contradiction].
    - refine (conj eq_refl (conj eq_refl (conj eq_refl (conj eq_refl (conj _ _))))); [intros X; discriminate X|].
      intros _. constructor; [split; reflexivity|constructor]. }
  intros n. unfold epoch_of; simpl. unfold zep. destruct (n <=? 3)%N eqn:A, (n + 1 <=? 3)%N eqn:B; try lia.
Qed.

(** A fresh node of epoch 0. *)
Definition zs0 : fol := mkf [] [] [] 0 1 [] false 0 [] false None None None None [] false.
Lemma zbooted a : booted (zT a) zs0.
Proof.
  unfold booted, zs0; cbn. do 9 (split; [auto|]). unfold true_pack; cbn. split; [lia|]. split; [lia|]. split; [intros [|i] o H; discriminate H|].
  split; [lia|]. intros X; discriminate X.
Qed.
Definition zrun a := run zbd zhd (zaddr a) zcap zH0.
Definition za : N -> N := fun _ => 100%N.
Definition zwalk a (e n : N) : ev := Walk 0 true (Some (e, write_output zbd (zT a n))).

Lemma zhonest a n : honest_digests zbd zhd (zT a) (write_output zbd (zT a n)).
Proof.
  split.
  - intros h m [E|E] D.
    + injection E as <-. unfold digest_at, digest_of, zhd in D. cbn in D. f_equal. f_equal. lia.
    + apply in_map_iff in E. destruct E as [? [E _]]. discriminate E.
  - intros b m b' _ _ E. exact E.
Qed.
Lemma zsame e : same_addresses (zaddr za) (zT za) e.
Proof. intros n h a _ H. exact H. Qed.

(** Three heights downloaded backwards from the gossiped tip, drained and saved. *)
Definition zevents : list ev :=
  [Start 0 None 0; Gossip false 3 1003; zwalk za 0 3; zwalk za 0 2; zwalk za 0 1; Poll;
   Drain true true; Drain true true; Handle; Drain true true; Handle; Handle].
Theorem C44_nonvacuous :
  chain zbd zhd (zaddr za) zH0 (zT za) /\ booted (zT za) zs0 /\ good_history zbd zhd (zaddr za) zcap zH0 (zT za) zs0 zevents /\
  Forall calm zevents /\ Forall no_crash zevents /\
  snd (zrun za zs0 zevents) = [zT za 1; zT za 2; zT za 3] /\ f_latest (fst (zrun za zs0 zevents)) = 3%N.
Proof.
  split; [apply zchain|]. split; [apply zbooted|]. split.
  { unfold zevents. repeat (split; [|try exact Logic.I]);
    try (cbn; lia); try exact Logic.I; try (apply zhonest); try (apply zsame); try (split; [apply zhonest|apply zsame]). }
  split; [repeat constructor|]. split; [repeat constructor|]. split; vm_compute; reflexivity.
Qed.

(** The same node, once the walk is at height 0: it is still walking. *)
Theorem C44_example_walk_stuck :
  let s := fst (zrun za zs0 zevents) in
  f_walks s = [{| w_floor := 0; w_ceil := 3; w_job := Walking 0 1000 0 |}] /\ local s 0 = None /\ cget 0 (f_cache s) = None /\
  covered (ranges s) 1 3 = true.
Proof. vm_compute. repeat split; reflexivity. Qed.

(** Refuted: the subscriber notices a message lost in the channel.  With an imported pack of the epoch
    open, output 1 is lost and output 2 is saved as if nothing had happened. *)
Definition zlag : list ev :=
  [Start 0 (Some (1%N, [zT za 1; zT za 2; zT za 3], true)) 0; Nudge 3; Poll; Drain true true; Drain true true; Lag; Handle].
Theorem C44_lag_skips_an_output_refuted :
  good_history zbd zhd (zaddr za) zcap zH0 (zT za) zs0 zlag /\
  snd (zrun za zs0 zlag) = [zT za 2] /\ f_latest (fst (zrun za zs0 zlag)) = 2%N /\ f_err (fst (zrun za zs0 zlag)) = false.
Proof.
  split; [|vm_compute; repeat split; reflexivity].
  unfold zlag. split; [|repeat (split; [exact Logic.I|]); exact Logic.I].
  cbn [good_event]. split; [cbn; lia|]. unfold true_pack. cbn [f_latest zs0 length]. split; [lia|]. split; [cbn; lia|]. split.
  - intros [|[|[|i]]] o H; cbn in H; try (injection H as <-; split; reflexivity). destruct i; discriminate H.
  - split; [vm_compute; intros X; discriminate X|]. intros _. vm_compute. reflexivity.
Qed.

(** Refuted: a downloaded output is the true one whichever committee it was decoded with.  An author
    whose address differs between two committees is paid at the wrong one if the reader guesses the
    wrong epoch for the number. *)
Definition zb (e : N) : N := (100 + e)%N.
Theorem C44_wrong_committee_refuted :
  let evs := [Start 0 None 0; Gossip false 1 1001; zwalk zb 1 1; Poll; Drain true true; Handle] in
  honest_digests zbd zhd (zT zb) (write_output zbd (zT zb 1)) /\ ~ same_addresses (zaddr zb) (zT zb) 1 /\
  exists o, snd (zrun zb zs0 evs) = [o] /\ header_of o = header_of (zT zb 1) /\ out_batches o <> out_batches (zT zb 1).
Proof.
  split; [apply zhonest|]. split.
  - intros S. specialize (S 1%N {| oh_author := 7; oh_payload := [11%N] |} 101%N (or_introl eq_refl) eq_refl). vm_compute in S. discriminate S.
  - eexists. split; [vm_compute; reflexivity|]. split; [vm_compute; reflexivity|]. vm_compute. intros X. discriminate X.
Qed.
