(* C57: execution extensions. *)
From Verif Require Import Util ExexModel ExexSpec ExexProofs ExexProofs2 ExexProofs3.
Local Open Scope N_scope.

Definition after (caps : list nat) (es : list xev) : xsys := snd (xrun (xsys_new caps) es).
Definition output (caps : list nat) (es : list xev) : list (nat * note) := fst (xrun (xsys_new caps) es).

Lemma nth_new caps i h : nth_error (x_hs (xsys_new caps)) i = Some h -> exists c, nth_error caps i = Some c /\ h = hnd_new c.
Proof. cbn. rewrite nth_error_map. destruct (nth_error caps i) as [c|]; [|discriminate]. intros [= <-]. eauto. Qed.

Lemma told_new caps es : told (xsys_new caps) es = story None (inputs es).
Proof. reflexivity. Qed.

(* ---------- delivery ---------- *)
(* Whatever the sources bring and however slow the ExEx is, what it received, followed by what waits in its channel and the
   marker still owed, is the whole story in order in which each run of lost notifications is replaced by one marker with
   their exact number. *)
Theorem C57_delivery caps es i h :
  heights_u64 (inputs es) -> N.of_nat (length (story None (inputs es))) <= U64 ->
  nth_error (x_hs (after caps es)) i = Some h -> h_open h = true ->
  lossy (story None (inputs es)) (got i (output caps es) ++ h_q h ++ (if h_drop h =? 0 then [] else [NLag (h_drop h)])).
Proof.
  intros Hu Hl Hh Ho. destruct (open_back _ _ _ _ Hh Ho) as (h0 & H0 & Ho0).
  destruct (nth_new _ _ _ H0) as (c & _ & ->).
  assert (H : hinv ([] ++ told (xsys_new caps) es) ([] ++ got i (output caps es)) h).
  { eapply run_inv; eauto; cbn; auto. exists [], []. cbn. split; auto. split; auto. constructor. }
  rewrite told_new in H. cbn [app] in H. destruct H as (a0 & run & -> & H1 & H2). rewrite app_assoc. apply lossy_app; auto.
  destruct (h_drop h =? 0) eqn:E; destruct run as [|x run]; cbn [length] in H1; try lia; [constructor|].
  rewrite H1. rewrite <- (app_nil_r (x :: run)) at 1. constructor; [congruence|constructor].
Qed.

(* If it never falls behind by more than its channel holds, it misses nothing and sees no marker of the manager's making. *)
Theorem C57_nothing_lost caps es i c :
  heights_u64 (inputs es) -> nth_error caps i = Some c -> ~ In (XDie i) es ->
  (forall p q, es = p ++ q -> length (story None (inputs p)) <= length (got i (output caps p)) + Nat.max 1 c)%nat ->
  exists waiting, story None (inputs es) = got i (output caps es) ++ waiting /\ (length waiting <= Nat.max 1 c)%nat.
Proof.
  intros Hu Hc Hn Hb. assert (H0 : nth_error (x_hs (xsys_new caps)) i = Some (hnd_new c)) by (cbn; rewrite nth_error_map, Hc; auto).
  assert (Hcap : h_cap (hnd_new c) = Nat.max 1 c). { cbn [hnd_new h_cap]. unfold resolve_cap. destruct (c =? 0)%nat eqn:E; lia. }
  destruct (no_loss_run i es (xsys_new caps) (hnd_new c) [] []) as (h & A & B & C & D); auto.
  - cbn. auto.
  - intros p q He. rewrite Hcap. rewrite told_new. cbn [app]. apply (Hb p q He).
  - rewrite told_new in D. cbn [app] in D. exists (h_q h). split; auto. specialize (Hb es [] (eq_sym (app_nil_r es))). unfold output in Hb. rewrite D, app_length in Hb. lia.
Qed.

(* The blocks: for commits that come in order, some of them possibly lost on the way to the manager, two chains the ExEx
   sees with no marker between them are adjacent: no block is skipped silently. *)
Theorem C57_no_silent_hole caps es i h :
  heights_u64 (inputs es) -> N.of_nat (length (story None (inputs es))) <= U64 ->
  nth_error (x_hs (after caps es)) i = Some h -> h_open h = true ->
  in_order None (commits (inputs es)) -> no_holes None (got i (output caps es) ++ h_q h).
Proof.
  intros Hu Hl Hh Ho Hc. pose proof (C57_delivery caps es i h Hu Hl Hh Ho) as H. apply (lossy_no_holes _ _) with (t := None) in H; [|apply story_no_holes; auto].
  rewrite app_assoc in H. revert H. generalize (got i (output caps es) ++ h_q h). generalize (@None N). intros t l. revert t.
  induction l as [|[c|o|s|m] l IH]; intros t; cbn [app no_holes]; auto; try apply IH. intros [A B]. split; auto.
Qed.

(* What the other ExExes do, or whether they exist, or how big their channels are, makes no difference to this one. *)
Theorem C57_isolation caps caps' es i :
  nth_error caps i = nth_error caps' i -> got i (output caps es) = got i (output caps' (filter (concerns i) es)).
Proof. intros H. apply isolated; cbn; auto. rewrite !nth_error_map, H. auto. Qed.
(* Only the end of a source stops the manager: no ExEx can. *)
Theorem C57_manager_survives caps es : x_run (after caps es) = true <-> ~ stopped es.
Proof. unfold after. rewrite run_stopped. cbn. tauto. Qed.
(* Capacity 0 gives a channel of one. *)
Theorem C57_capacity caps es i c : nth_error caps i = Some c -> exists h, nth_error (x_hs (after caps es)) i = Some h /\ h_cap h = Nat.max 1 c /\ (length (h_q h) <= Nat.max 1 c)%nat.
Proof.
  intros Hc. assert (H0 : nth_error (x_hs (xsys_new caps)) i = Some (hnd_new c)) by (cbn; rewrite nth_error_map, Hc; auto).
  assert (Hcap : h_cap (hnd_new c) = Nat.max 1 c /\ (length (h_q (hnd_new c)) <= Nat.max 1 c)%nat). { cbn [hnd_new h_cap h_q length]. unfold resolve_cap. destruct (c =? 0)%nat eqn:E; split; lia. }
  remember (Nat.max 1 c) as mx eqn:Emx. assert (Hm1 : (1 <= mx)%nat) by lia. clear Emx.
  unfold after. revert H0 Hcap. generalize (xsys_new caps), (hnd_new c). induction es as [|e es IH]; intros s h0 H0 [Hcap Hl]; cbn [xrun].
  - exists h0. auto.
  - destruct (step_h s e i h0 H0) as [S1 _]. destruct (xstep s e) as [o s1]. cbn [snd] in S1. specialize (IH s1 _ S1). destruct (xrun s1 es) as [o2 s2]. cbn [snd] in *. apply IH.
    assert (Hsn : forall h n, h_cap h = mx /\ (length (h_q h) <= mx)%nat -> h_cap (send_note h n) = mx /\ (length (h_q (send_note h n)) <= mx)%nat).
    { intros h n [A B]. unfold send_note, try_send. destruct (h_open h); cbn [negb]; auto. destruct (length (h_q h) <? h_cap h)%nat eqn:E; cbn; auto. rewrite app_length. cbn. apply Nat.ltb_lt in E. lia. }
    assert (Hs : forall h n, h_cap h = mx /\ (length (h_q h) <= mx)%nat -> h_cap (send h n) = mx /\ (length (h_q (send h n)) <= mx)%nat).
    { intros h n A. unfold send. destruct (0 <? h_drop h); auto. unfold try_send. destruct (h_open h); cbn [negb]; auto. destruct (length (h_q h) <? h_cap h)%nat eqn:E; [|cbn; auto].
      apply Hsn. destruct A as [A B]. cbn. rewrite app_length. cbn. apply Nat.ltb_lt in E. lia. }
    destruct e as [r|j|j|j x|j]; cbn [hstep].
    + clear IH S1 H0. revert h0 Hcap Hl. induction (hnotes s (XIn r)) as [|n ns IHn]; intros h0 Hcap Hl; cbn [fold_left]; auto. destruct (Hs h0 n (conj Hcap Hl)). auto.
    + destruct (_ && _); auto. unfold take_event. destruct (h_ev h0); auto.
    + destruct (Nat.eqb j i); auto. destruct (h_open h0); auto. cbn. destruct (h_q h0); cbn in *; split; auto; lia.
    + destruct (Nat.eqb j i); auto. unfold report_h. destruct (_ && _); auto.
    + destruct (Nat.eqb j i); auto. cbn. split; auto. lia.
Qed.

(* ---------- the floor ---------- *)
(* The published height is the minimum of the heights last taken from the ExExes, and nothing while one has not reported. *)
Theorem C57_floor_is_min caps es m :
  x_min (after caps es) = Some m <->
  (In (Some m) (map h_fin (x_hs (after caps es))) /\ forall f, In f (map h_fin (x_hs (after caps es))) -> exists x, f = Some x /\ m <= x).
Proof.
  pose proof (xrun_floor es (xsys_new caps) (new_floor caps)) as H. unfold floor_inv in H. fold (after caps es) in H. rewrite H. unfold recompute_min. generalize (x_hs (after caps es)). intros hs. split.
  - destruct (min_fold None hs) as [[x|]|] eqn:E; try discriminate. intros [= ->]. apply fold_min in E. destruct E as (A & _ & C). split.
    + destruct C as [C|(k & K1 & K2)]; [discriminate|]. rewrite <- K2. apply in_map; auto.
    + intros f Hf. apply in_map_iff in Hf. destruct Hf as (k & <- & K). apply A in K. auto.
  - intros [A B]. destruct (fold_min_some hs None) as (o & O1 & O2).
    + intros k Hk. destruct (B (h_fin k)) as (x & X & _); [apply in_map; auto|eauto].
    + rewrite O1. destruct o as [x|].
      * apply fold_min in O1. destruct O1 as (P & _ & Q). apply in_map_iff in A. destruct A as (k & K1 & K2). destruct (P k K2) as (y & Y1 & Y2).
        destruct Q as [Q|(k' & Q1 & Q2)]; [discriminate|]. destruct (B (h_fin k')) as (z & Z1 & Z2); [apply in_map; auto|]. f_equal. assert (y = m) by congruence. assert (z = x) by congruence. lia.
      * exfalso. apply O2; auto. right. intros ->. destruct A.
Qed.
(* It never passes what every ExEx has reported, and is a height one of them reported. *)
Theorem C57_floor_safe caps es m : x_min (after caps es) = Some m ->
  (forall i, (i < length caps)%nat -> exists x, In x (reports i es) /\ m <= x) /\ exists i, In m (reports i es).
Proof.
  intros H. apply C57_floor_is_min in H. destruct H as [A B]. unfold after in *.
  assert (Hrep : forall i h x, nth_error (x_hs (snd (xrun (xsys_new caps) es))) i = Some h -> h_fin h = Some x -> In x (reports i es)).
  { intros i h x Hi Hx. destruct (nth_error (x_hs (xsys_new caps)) i) as [h0|] eqn:E0.
    - destruct (nth_new _ _ _ E0) as (c & _ & ->). destruct (run_fin i es _ _ E0) as (h' & F1 & F2 & _). assert (h' = h) by congruence. subst h'. apply F2 in Hx. cbn in Hx. destruct Hx as [Hx|[[]|Hx]]; [discriminate|auto].
    - exfalso. apply nth_error_None in E0. rewrite <- (xrun_len es) in E0. apply nth_error_None in E0. congruence. }
  split.
  - intros i Hi. assert (Hlen : (i < length (x_hs (snd (xrun (xsys_new caps) es))))%nat) by (rewrite xrun_len; cbn; rewrite map_length; auto).
    apply nth_error_Some in Hlen. destruct (nth_error (x_hs (snd (xrun (xsys_new caps) es))) i) as [h|] eqn:E; [|congruence].
    destruct (B (h_fin h)) as (x & X1 & X2); [apply in_map; eapply nth_error_In; eauto|]. exists x. split; eauto.
  - apply in_map_iff in A. destruct A as (h & H1 & H2). apply In_nth_error in H2. destruct H2 as [i Hi]. exists i. eauto.
Qed.
(* If each ExEx reports ever higher heights, the floor is at most the last report of each. *)
Corollary C57_floor_below_last caps es m i : x_min (after caps es) = Some m -> (i < length caps)%nat ->
  StronglySorted N.le (reports i es) -> m <= last (reports i es) 0.
Proof.
  intros H Hi Hs. apply C57_floor_safe in H. destruct H as [H _]. destruct (H i Hi) as (x & X1 & X2). revert X1.
  assert (G : forall l, StronglySorted N.le l -> In x l -> x <= last l 0).
  { clear. induction l as [|a l IH]; intros Hs Hx; [destruct Hx|]. inversion Hs as [|a' l' H1 H2]; subst. destruct l as [|b l]; [destruct Hx as [<-|[]]; cbn; lia|].
    change (last (a :: b :: l) 0) with (last (b :: l) 0). destruct Hx as [<-|Hx]; [|auto]. rewrite Forall_forall in H2.
    assert (Hin : In (last (b :: l) 0) (b :: l)). { destruct (@exists_last _ (b :: l)) as (l0 & z & ->); [congruence|]. rewrite last_last. apply in_or_app. right; left; auto. }
    apply H2 in Hin. auto. }
  intros X1. specialize (G _ Hs X1). lia.
Qed.
Theorem C57_floor_waits caps es i : (i < length caps)%nat -> reports i es = [] -> x_min (after caps es) = None.
Proof.
  intros Hi Hr. destruct (x_min (after caps es)) as [m|] eqn:E; auto. apply C57_floor_safe in E. destruct E as [E _]. destruct (E i Hi) as (x & X & _). rewrite Hr in X. destruct X.
Qed.
(* A report of a living ExEx with an empty event channel counts once the manager has taken it; the others keep theirs. *)
Theorem C57_report_counts caps es i h x :
  nth_error (x_hs (after caps es)) i = Some h -> h_alive h = true -> h_ev h = [] -> ~ stopped es ->
  map h_fin (x_hs (after caps (es ++ [XReport i x; XEvent i]))) = upd (map h_fin (x_hs (after caps es))) i (fun _ => Some x).
Proof.
  intros Hh Ha He Hn. apply (C57_manager_survives caps) in Hn. unfold after in *. rewrite xrun_app. cbn [snd]. set (s := snd (xrun (xsys_new caps) es)) in *.
  cbn [xrun xstep x_run x_hs]. rewrite Hn. cbn [negb]. rewrite nth_upd_same, Hh. cbn [option_map]. unfold report_h at 1. rewrite Ha, He. cbn [length Nat.ltb Nat.leb andb EV_CAP h_ev app].
  cbn [snd x_hs]. assert (Hu : nth_error (upd (x_hs s) i (report_h x)) i = Some (report_h x h)) by (rewrite nth_upd_same, Hh; auto).
  clear - Hh Ha He. revert i Hh. generalize (x_hs s). clear s. induction l as [|a l IH]; intros [|i] Hh; cbn in Hh |- *; try discriminate.
  - injection Hh as ->. f_equal. unfold take_event, report_h. rewrite Ha, He. cbn. auto.
  - f_equal. apply IH; auto.
Qed.

(* ---------- replay ---------- *)
(* Every poll of a replay: the blocks in turn up to the first that cannot be read, which is reported once; then the end, for
   ever. *)
Theorem C57_replay src start e k : e <= U64 ->
  rpolls src e (Active start) k =
  map Some (firstn k (replay_spec src start (range_len start e))) ++ repeat None (k - length (replay_spec src start (range_len start e))).
Proof. intros. apply rpolls_exact; auto. Qed.
Theorem C57_replay_error_last src start e k a n b : e <= U64 ->
  somes (rpolls src e (Active start) k) = a ++ IErr n :: b ->
  b = [] /\ start <= n <= e /\ (forall s, src n <> ROk s) /\ (length a = N.to_nat (n - start))%nat /\ forall m, start <= m < n -> exists s, src m = ROk s.
Proof.
  intros He. rewrite rpolls_exact, somes_exact; auto. remember (range_len start e) as c eqn:Ec. assert (Hc : forall m, (N.to_nat (m - start) < c)%nat -> start <= m -> m <= e) by (subst; unfold range_len; lia). clear Ec.
  revert start k Hc a. induction c as [|c IH]; intros start k Hc a; cbn [replay_spec]; [rewrite firstn_nil; destruct a; discriminate|].
  destruct k as [|k]; [cbn; destruct a; discriminate|].
  destruct (src start) as [seg| |] eqn:Es; cbn [firstn].
  - destruct a as [|x a]; cbn [app]; [discriminate|]. intros [= <- H]. apply IH in H.
    + destruct H as (H1 & H2 & H3 & H4 & H5). split; auto. split; [lia|]. split; auto. split; [cbn [length]; lia|]. intros m Hm. destruct (N.eq_dec m start) as [->|]; [eauto|apply H5; lia].
    + intros m M1 M2. apply Hc; lia.
  - rewrite firstn_nil. destruct a as [|x [|y a]]; cbn [app]; try discriminate. intros [= <- <-]. split; auto. split; [split; [lia|apply Hc; lia]|]. split; [intros s; congruence|]. split; [cbn; lia|]. intros m Hm; lia.
  - rewrite firstn_nil. destruct a as [|x [|y a]]; cbn [app]; try discriminate. intros [= <- <-]. split; auto. split; [split; [lia|apply Hc; lia]|]. split; [intros s; congruence|]. split; [cbn; lia|]. intros m Hm; lia.
Qed.

(* ---------- catching up ---------- *)
(* In any replay-then-live stream the heights strictly increase, and nothing but chains is ever left out. *)
Theorem C57_heights_increase src start tip k live : incr None (chains_i (replay_and_subscribe src start tip k live)).
Proof. apply dedup_incr. Qed.
Theorem C57_others_pass src start tip k live x :
  (forall s, x <> NChain s) -> (In (IOk x) (replay_and_subscribe src start tip k live) <->
    In (IOk x) (match tip with Some t => somes (rpolls src t (Active start) k) | None => [] end) \/ In x live).
Proof.
  intros Hx. unfold replay_and_subscribe.
  assert (Hf : forall l, In (IOk x) l <-> In (IOk x) (filter (fun x => match x with IOk (NChain _) => false | _ => true end) l)).
  { intros l. rewrite filter_In. destruct x as [c|o|s|m]; try tauto. exfalso. eapply Hx; eauto. }
  rewrite Hf, dedup_others, <- Hf, in_app_iff, in_map_iff. split.
  - intros [H|(y & [= ->] & H)]; auto. destruct tip; auto. destruct H as [H|[]]; discriminate.
  - intros [H|H]; [left; destruct tip; auto; destruct H|right; eauto].
Qed.
(* End to end. C is the chain's commits, g the block before them. The node has C up to its j-th commit when the ExEx asks for a
   replay from start; the commits the manager took are some of C in order, the first one starting no later than right after
   the tip; the database is readable. If the ExEx saw no marker, it got every block from start to the last, each once and in
   order, with no error. *)
Theorem C57_catch_up caps es i h C g j start src K :
  heights_u64 (inputs es) -> N.of_nat (length (story None (inputs es))) <= U64 ->
  nth_error (x_hs (after caps es)) i = Some h -> h_open h = true ->
  linked g C -> subseq (commits (inputs es)) C ->
  let tip := end_of g (firstn j C) in
  let live := got i (output caps es) in
  tip <= U64 -> start <= tip ->
  (forall s r, commits (inputs es) = s :: r -> seg_first s <= tip + 1) ->
  (forall m, start <= m -> m <= tip -> src m = ROk [m]) -> has_lag live = false -> (range_len start tip <= K)%nat ->
  concat (chains_i (replay_and_subscribe src start (Some tip) K live)) = run_from start (N.to_nat (N.max tip (end_of tip (chains live)) + 1 - start)) /\
  no_err (replay_and_subscribe src start (Some tip) K live).
Proof.
  intros Hu Hl Hh Ho HC Hsub tip live Ht Hs Hf Hsrc Hlag HK.
  pose proof (C57_delivery caps es i h Hu Hl Hh Ho) as Hd. fold live in Hd.
  destruct (lossy_prefix _ _ Hd _ _ eq_refl Hlag) as (a2 & Ha & _).
  assert (Hin : forall s, In s (commits (inputs es)) -> In s C) by (intros s; apply subseq_in; auto).
  assert (Hsegs : forall s, In s C -> is_seg s) by (intros s Hi; eapply linked_bounds in Hi; eauto; tauto).
  assert (Hch : commits (inputs es) = chains live ++ chains a2).
  { rewrite <- chains_app, <- Ha. symmetry. apply chains_story. intros s Hi. apply Hin, Hsegs in Hi. destruct Hi; auto. }
  assert (Hio : in_order (Some g) (commits (inputs es))) by (eapply in_order_sub; eauto; apply linked_in_order; auto).
  assert (Hnh : no_holes None live).
  { pose proof (story_no_holes (inputs es) None (in_order_none _ _ Hio)) as H. rewrite Ha in H. clear - H. revert H. generalize (@None N). induction live as [|[c|o|s|m] l IH]; intros t; cbn [app no_holes]; auto; try apply IH. intros [A B]; split; eauto. }
  assert (Hlive : forall s, In s (chains live) -> In s C) by (intros s Hi; apply Hin; rewrite Hch; apply in_or_app; auto).
  assert (Hsplit : exists p q, chains live = p ++ q /\ (forall s, In s p -> s <> [] /\ seg_tip s <= tip) /\ linked tip q).
  { pose proof (no_holes_linked_none live Hnh Hlag (fun s H => Hsegs s (Hlive s H))) as H. destruct (chains live) as [|s r] eqn:El.
    - exists [], []. split; auto. split; [intros s []|cbn; auto].
    - assert (Hs1 : In s C) by (apply Hlive; left; auto). pose proof (linked_bounds C g s HC Hs1) as (B1 & _ & B3).
      assert (B4 : seg_first s <= tip + 1) by (eapply Hf; rewrite Hch; reflexivity).
      destruct (split_at tip (s :: r) (seg_first s - 1)) as (p & q & -> & P & Q & _).
      + cbn [linked]. split; auto. split; [lia|auto].
      + lia.
      + intros z Hz. apply boundary; auto.
      + exists p, q. auto. }
  destruct Hsplit as (p & q & Hpq & Hp & Hq).
  unfold replay_and_subscribe. rewrite replay_collect; auto. rewrite dedup_replay; [|intros m M1 M2; apply Hsrc; auto; unfold range_len in M2; lia|auto].
  destruct (range_len start tip) as [|c] eqn:Er; [unfold range_len in Er; lia|].
  replace (start + N.of_nat (S c) - 1) with tip by (unfold range_len in Er; lia).
  split.
  - rewrite chains_i_app, chains_i_singles, concat_app, concat_singles, (dedup_live tip live p q Hpq Hp Hq), (linked_concat q tip Hq).
    assert (Hend : N.max tip (end_of tip (chains live)) = end_of tip q).
    { rewrite Hpq. destruct q as [|s q].
      - rewrite app_nil_r. assert (end_of tip p <= tip). { destruct p as [|s p]; [cbn; lia|]. unfold end_of. apply Hp. destruct (@exists_last _ (s :: p)) as (l0 & z & ->); [congruence|]. rewrite last_last. apply in_or_app. right; left; auto. }
        cbn [end_of]. lia.
      - assert (E : forall t, end_of t (p ++ s :: q) = end_of t (s :: q)).
        { clear. induction p as [|a p IH]; intros t; auto. cbn [app]. rewrite end_of_cons, IH. rewrite !end_of_cons. auto. }
        rewrite (E tip). pose proof (linked_le _ _ Hq). lia. }
    rewrite Hend. pose proof (linked_le _ _ Hq) as L. replace (N.to_nat (end_of tip q + 1 - start)) with (S c + N.to_nat (end_of tip q - tip))%nat by (unfold range_len in Er; lia).
    rewrite run_from_app. f_equal. f_equal. unfold range_len in Er; lia.
  - intros x Hx. apply in_app_or in Hx. destruct Hx as [Hx|Hx].
    + apply in_map_iff in Hx. destruct Hx as (m & M & _). discriminate.
    + clear - Hx. revert Hx. generalize (Some tip). generalize live as l. induction l as [|y l IH]; intros t; cbn [map dedup]; [intros []|].
      destruct y as [c|o|s|m]; try (intros [H|H]; [discriminate|eapply IH; eauto]). destruct s as [|z s]; [apply IH|]. destruct (keep_height t (seg_tip (z :: s))) as [[|] lh]; [intros [H|H]; [discriminate|]|intros H]; eapply IH; eauto.
Qed.

(* ---------- merge ---------- *)
(* A source that keeps having items is served within 2 (certificates), 4 (outputs), 8 (blocks), 8 (events) polls, whatever
   the others do. *)
Theorem C57_fair x g rs : (forall r, In r rs -> is_ready r x = true) -> (x = SEvents -> mg_end g = false) -> (bound x <= length rs)%nat ->
  exists k, (k < bound x)%nat /\ nth_error (polls g rs) k = Some (Some x).
Proof.
  intros H1 H2 H3. pose proof (wt_bound x g). destruct (fair x rs g H1 H2) as (k & K1 & K2); [lia|]. exists k. split; [lia|auto].
Qed.
(* With all four busy the shares are 4 : 2 : 1 : 1. *)
Definition busy : ready := mk_ready true true true true false.
Theorem C57_shares n : polls mg_new (repeat busy (8 * n)) = concat (repeat (map Some [SCert; SOut; SCert; SCanon; SCert; SOut; SCert; SEvents]) n).
Proof.
  induction n as [|n IH]; [auto|]. replace (8 * S n)%nat with (8 + 8 * n)%nat by lia. rewrite repeat_app.
  change (polls mg_new (repeat busy 8 ++ repeat busy (8 * n))) with (map Some [SCert; SOut; SCert; SCanon; SCert; SOut; SCert; SEvents] ++ polls mg_new (repeat busy (8 * n))).
  rewrite IH. auto.
Qed.
(* An item is never invented: what is yielded was ready; and a poll yields nothing only if no source was ready. *)
Theorem C57_poll_sound r g : match fst (poll_outer r g) with
  | Some x => is_ready r x = true
  | None => forall x, is_ready r x = true -> x = SEvents /\ mg_end g = true end.
Proof.
  destruct r as [[] [] [] [] []], g as [[] [] [] []]; cbn; auto; intros []; cbn; auto; discriminate.
Qed.

(* ---------- cases ---------- *)
(* A slow ExEx with room for two: two of five certificates are lost and announced as two. *)
Example C57_example_slow :
  let es := map (fun c => XIn (ICert (inl c))) [1; 2; 3; 4] ++ [XRecv 0; XRecv 0; XIn (ICert (inl 5)); XRecv 0; XRecv 0] in
  got 0 (output [2%nat; 0%nat] es) = [NCert 1; NCert 2; NLag 2; NCert 5] /\ story None (inputs es) = map NCert [1; 2; 3; 4; 5].
Proof. vm_compute. auto. Qed.
(* An upstream loss of block 3 is announced, and the ExEx that replays 1..2 and then listens gets the rest. *)
Example C57_example_gap :
  let es := [XIn (ICommit [2]); XIn (ICommit [4; 5])] ++ repeat (XRecv 0) 3 in
  got 0 (output [8%nat] es) = [NChain [2]; NLag 1; NChain [4; 5]] /\ in_order None (commits (inputs es)).
Proof. vm_compute. repeat split; auto; discriminate. Qed.
Example C57_example_catch_up :
  let C := [[1]; [2; 3]; [4]; [5; 6]] in
  let es := [XIn (ICommit [2; 3]); XIn (IOut (inl 9)); XIn (ICommit [4]); XIn (ICommit [5; 6])] ++ repeat (XRecv 0) 4 in
  linked 0 C /\ subseq (commits (inputs es)) C /\ end_of 0 (firstn 3 C) = 4 /\ has_lag (got 0 (output [8%nat] es)) = false /\
  concat (chains_i (replay_and_subscribe (fun m => ROk [m]) 1 (Some 4) 9 (got 0 (output [8%nat] es)))) = [1; 2; 3; 4; 5; 6].
Proof.
  cbv zeta. split; [vm_compute; repeat split; auto; discriminate|]. split; [cbn; repeat constructor|]. vm_compute. auto.
Qed.
Example C57_example_floor :
  let es := [XReport 0 7; XReport 1 5; XEvent 0; XEvent 1] in
  x_min (after [4%nat; 4%nat] es) = Some 5 /\ x_min (after [4%nat; 4%nat; 4%nat] es) = None.
Proof. vm_compute. auto. Qed.

(* ---------- refuted ---------- *)
(* Blocks lost before the manager's first commit are not announced: there is nothing to compare with. *)
Theorem C57_first_gap_refuted :
  let C := map (fun n => [n]) [1; 2; 3; 4] in
  let es := [XIn (ICommit [4]); XRecv 0] in
  subseq (commits (inputs es)) C /\
  replay_and_subscribe (fun m => ROk [m]) 1 (Some 1) 4 (got 0 (output [8%nat] es)) = [IOk (NChain [1]); IOk (NChain [4])].
Proof. split; [repeat constructor|vm_compute; auto]. Qed.
(* An ExEx that is already at the tip when it subscribes gets buffered blocks below its start again: an empty replay leaves
   the height filter without a baseline. *)
Theorem C57_below_start_refuted :
  let es := [XIn (ICommit [3]); XIn (ICommit [4]); XIn (ICommit [5]); XRecv 0; XRecv 0; XRecv 0] in
  replay_and_subscribe (fun m => ROk [m]) 5 (Some 4) 4 (got 0 (output [8%nat] es)) = [IOk (NChain [3]); IOk (NChain [4]); IOk (NChain [5])].
Proof. vm_compute. auto. Qed.
(* If the tip lies inside a commit of several blocks, its first blocks come twice. *)
Theorem C57_seam_refuted :
  concat (chains_i (replay_and_subscribe (fun m => ROk [m]) 1 (Some 2) 4 [NChain [2; 3]])) = [1; 2; 2; 3].
Proof. vm_compute. auto. Qed.
(* The last report wins, not the highest: the published height can go down. *)
Theorem C57_floor_regresses_refuted :
  x_min (after [4%nat] [XReport 0 9; XEvent 0]) = Some 9 /\ x_min (after [4%nat] [XReport 0 9; XEvent 0; XReport 0 3; XEvent 0]) = Some 3.
Proof. vm_compute. auto. Qed.
(* A report made while sixteen wait is lost: if it was the last one, the floor stays behind for good. *)
Theorem C57_last_report_lost_refuted :
  let es := map (XReport 0) [1; 2; 3; 4; 5; 6; 7; 8; 9; 10; 11; 12; 13; 14; 15; 16; 17] ++ repeat (XEvent 0) 20 in
  x_min (after [4%nat] es) = Some 16 /\ last (reports 0 es) 0 = 17.
Proof. vm_compute. auto. Qed.
