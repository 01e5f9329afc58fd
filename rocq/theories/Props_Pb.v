(* C58: the proposer keeps its promise about acknowledged batches. *)
From Verif Require Import Util PbModel PbSpec PbProofs1 PbProofs2 PbProofs3 PbProofs4 PbProofs5.
Local Open Scope N_scope.

(* Whatever happens since the proposer started (any interleaving of digests, parents, commit reports, timers, header
   tasks, schedule changes and foreign writes of the round watch), every digest acknowledged to a worker is waiting in
   the queue, in the header being sent, in a tracked header, or in a header of ours reported as committed. *)
Theorem C58_never_lost : forall c prim st sch evs d,
  let s := brun c (b_new c prim st sch) evs in
  b_dead s = false -> In d (keys (b_acked s)) -> accounted c s d.
Proof. intros c prim st sch evs d s D X. apply (cover_run c prim st sch evs D d). left. exact X. Qed.
(* The same holds for the batches of a header of this epoch that was sent again after a restart. *)
Theorem C58_resent_batches_kept : forall c prim st sch evs h d,
  let s := brun c (b_new c prim st sch) evs in
  b_dead s = false -> In h (b_sent s) -> bh_epoch h = c_epoch c -> carries h d -> accounted c s d.
Proof. intros c prim st sch evs h d s D X He Hc. apply (cover_run c prim st sch evs D d). right. exists h. auto. Qed.
(* Each acknowledgement is recorded: the acknowledged digests are exactly those of the digest events met alive. *)
Theorem C58_acks_recorded : forall c s d w,
  b_dead s = false -> b_acked (bstep c s (BDigest d w)) = b_acked s ++ [(d, w)].
Proof.
  intros c s d w D. unfold bstep. rewrite D.
  destruct (loop_end_case c (set_q s (b_queue s ++ [(d, w)]) (b_acked s ++ [(d, w)]))); reflexivity.
Qed.
(* "reported as committed" means: sent to the certifier by this proposer and named by a report. *)
Theorem C58_done_was_reported : forall c prim st sch evs h,
  let s := brun c (b_new c prim st sch) evs in
  In h (b_done s) ->
  In h (b_sent s) /\ exists cr rs, In (BReport cr rs) evs /\ In (bh_round h) rs.
Proof.
  intros c prim st sch evs h s X.
  apply (from_sent_run (fun r => exists cr rs, In (BReport cr rs) evs /\ In r rs) c evs (b_new c prim st sch)).
  - apply inv1_init.
  - split; [intros r g []|intros g []].
  - intros cr rs Y r Z. exists cr, rs. auto.
  - exact X.
Qed.

(* If acknowledged digests are new, reports name tracked headers and no reported header is being sent again, then no
   batch is in two committed headers, and a committed batch is not waiting, being sent or tracked. *)
Theorem C58_committed_once : forall c prim st sch evs,
  let s0 := b_new c prim st sch in
  let s := brun c s0 evs in
  (forall h, st = Some h -> bh_epoch h = c_epoch c /\ 0 < bh_round h /\ NoDup (keys (bh_payload h))) ->
  along_b (fun s e => fresh_digest (rec_keys st) s e /\ calm c s e) c s0 evs ->
  NoDup (keys (flat_map bh_payload (b_done s))) /\
  forall h d, In h (b_done s) -> carries h d ->
    ~ In d (keys (b_queue s)) /\
    (forall g b, b_pend s = Some (g, b) -> ~ carries g d) /\
    (forall r g, In (r, g) (b_tracked s) -> ~ carries g d).
Proof.
  intros c prim st sch evs s0 s Hst Al.
  destruct (inv3_run c (rec_keys st) evs s0 (inv3_init c prim st sch Hst) Al) as (_ & (H & I) & Pd). fold s in I, Pd.
  destruct I as [i1 i2 i3 i4 i5 i6 i7 i8 i9 i10 i11 i12].
  apply NoDup_app_elim in i7. destruct i7 as (N1 & N2 & N3).
  split.
  - rewrite keys_flat. apply (flat_sub hk H); [exact N2|exact i11|]. intros h X. apply i1. right; right; exact X.
  - intros h d X Y. assert (Hh : In h H) by (apply i1; right; right; exact X). split; [|split].
    + intros Q. apply (N3 d Q). apply in_flat_map. exists h. split; assumption.
    + intros g b P Z. assert (h = g) as ->.
      { apply (flat_same hk H h g d N2); [exact Hh|apply i1; left; right; exists b; exact P|exact Y|exact Z]. }
      exact (Pd g b P X).
    + intros r g T Z. assert (h = g) as ->.
      { apply (flat_same hk H h g d N2); [exact Hh|apply i1; left; left; exists r; exact T|exact Y|exact Z]. }
      exact (i10 r g T X).
Qed.

(* A commit report: named headers are no longer tracked; tracked headers up to the largest named round are given up and
   their batches go to the front of the queue, oldest round first, in their order; later headers stay tracked. *)
Theorem C58_report_effect : forall c prim st sch evs rs,
  let s := brun c (b_new c prim st sch) evs in
  let s' := process_committed rs s in
  let mx := fold_left N.max rs 0 in
  (exists old, b_queue s' = flat_map (fun x => bh_payload (snd x)) old ++ b_queue s /\
     (forall r h, In (r, h) old <-> In (r, h) (b_tracked s) /\ ~ In r rs /\ r <= mx) /\
     StronglySorted N.lt (map fst old)) /\
  (forall r h, In (r, h) (b_tracked s') <-> In (r, h) (b_tracked s) /\ ~ In r rs /\ mx < r) /\
  (forall h, In h (b_done s') <-> In h (b_done s) \/ exists r, In r rs /\ In (r, h) (b_tracked s)).
Proof.
  intros c prim st sch evs rs s s' mx. pose proof (inv1_run c prim st sch evs) as I. fold s in I.
  pose proof (i_sorted _ _ I) as Srt. unfold s'. rewrite process_committed_eq by exact Srt.
  cbn [b_queue b_tracked b_done set_tracked]. split; [|split].
  - exists (given_up rs (b_tracked s)). split; [reflexivity|]. split.
    + intros r h. unfold given_up. rewrite filter_In. cbn [fst]. fold mx.
      rewrite andb_true_iff, negb_true_iff, memN_nIn, N.leb_le. reflexivity.
    + unfold given_up. rewrite (map_filter_fst (fun k => negb (memN k rs) && (k <=? fold_left N.max rs 0))).
      apply StronglySorted_filter. exact Srt.
  - intros r h. unfold still. rewrite filter_In. cbn [fst]. fold mx.
    rewrite andb_true_iff, negb_true_iff, memN_nIn, N.ltb_lt. reflexivity.
  - intros h. apply take_done_In. exact Srt.
Qed.

(* First come, first served: while nothing has been given up, the batches of the headers built, in order, followed by the
   queue, are the acknowledged digests in the order of acknowledgement. *)
Theorem C58_fifo : forall c prim st sch evs,
  let s := brun c (b_new c prim st sch) evs in
  NoDup (keys (b_acked s)) -> b_requeued s = [] ->
  flat_map bh_payload (b_created s) ++ b_queue s = b_acked s.
Proof. intros c prim st sch evs s. apply (fifo_run c evs). intros _ _. reflexivity. Qed.
(* And in general: a digest behind p others is in one of the next headers as soon as their number times the batch limit
   exceeds p plus the number of digests put back in front meanwhile. *)
Theorem C58_progress : forall c s evs d p post,
  let s' := brun c s evs in
  let news := skipn (length (b_created s)) (b_created s') in
  b_queue s = p ++ d :: post ->
  (length p + (length (b_requeued s') - length (b_requeued s)) < length news * c_max c)%nat ->
  exists h, In h news /\ carries h (fst d).
Proof.
  intros c s evs d p post s' news Q L.
  assert (T : turn c s d (length p) s').
  { apply turn_run. exists [], []. rewrite !app_nil_r. split; [reflexivity|]. split; [reflexivity|]. right.
    exists p, post. split; [exact Q|]. cbn. lia. }
  destruct T as (nw & rq & E1 & E2 & T).
  assert (En : news = nw) by (unfold news; rewrite E1, skipn_app, skipn_all, Nat.sub_diag; reflexivity).
  rewrite En in *. rewrite E2, app_length in L.
  destruct T as [T|(pr & po & _ & L')]; [exact T|]. lia.
Qed.

(* Every header built is of the epoch, has a positive round, at least one parent and at most the allowed number of
   batches; the rounds of the headers built are strictly increasing. *)
Theorem C58_header_shape : forall c prim st sch evs,
  let s := brun c (b_new c prim st sch) evs in
  (forall h, In h (b_created s) ->
     bh_epoch h = c_epoch c /\ 0 < bh_round h /\ bh_parents h <> [] /\ (length (bh_payload h) <= c_max c)%nat) /\
  StronglySorted N.lt (map bh_round (b_created s)).
Proof.
  intros c prim st sch evs s. destruct (built_run c evs (b_new c prim st sch)) as [A B].
  - split; [intros h []|constructor].
  - split; [|exact B]. intros h X. exact (proj1 (A h X)).
Qed.
(* If the proposer starts at round 0 and nobody else publishes a larger round, every parent of a header it builds is a
   certificate of the round before. *)
Theorem C58_parents_of_previous_round : forall c st sch evs h x,
  let s0 := b_new c 0 st sch in
  b_round s0 = 0 -> (forall g, In g (c_genesis c) -> bc_round g = 0) -> along_b own_watch c s0 evs ->
  In h (b_created (brun c s0 evs)) -> In x (bh_parents h) -> bh_round h = bc_round x + 1.
Proof.
  intros c st sch evs h x s0 R0 G W X Y.
  destruct (aligned_run c evs s0) as (_ & _ & A); [|exact W|exact (A h X x Y)].
  split; [intros g Hg; rewrite R0; exact (G g Hg)|]. split; [cbn; lia|intros g []].
Qed.
(* Only headers of the current epoch are sent, if parents never arrive as an empty list. *)
Theorem C58_only_this_epoch : forall c prim st sch evs h,
  c_genesis c <> [] -> (forall cs q, In (BParents cs q) evs -> cs <> []) ->
  In h (b_sent (brun c (b_new c prim st sch) evs)) -> bh_epoch h = c_epoch c.
Proof.
  intros c prim st sch evs h G NE. apply (ep_run c evs).
  - apply Forall_forall. intros e X. destruct e; try exact I. exact (NE cs q X).
  - split; [intros g []|]. split; [intros g b X; discriminate X|]. intros _. right; left. split; [reflexivity|exact G].
Qed.
(* After a restart, the header recorded in this epoch ahead of the published round is sent before anything new is built,
   as long as nothing moves the proposer to its round. *)
Theorem C58_restart_sends_recorded_header : forall c prim h sch evs,
  bh_epoch h = c_epoch c -> prim < bh_round h ->
  (forall cs q, In (BParents cs q) evs -> q < bh_round h) -> (forall v, In (BPrim v) evs -> v < bh_round h) ->
  let s := brun c (b_new c prim (Some h) sch) evs in
  b_created s <> [] -> In h (b_sent s).
Proof.
  intros c prim h sch evs He Hp W1 W2 s Hc.
  assert (A : resend_first h s).
  { apply resend_run; [exact He|lia| |].
    - apply Forall_forall. intros e X. destruct e; try exact I; [exact (W1 cs q X)|exact (W2 v X)].
    - left. unfold b_new. cbn. rewrite He, N.eqb_refl. cbn. destruct (N.ltb_spec prim (bh_round h)); [|lia].
      repeat split; assumption. }
  destruct A as [(_ & C & _)|[(_ & C)|[X|[_ C]]]]; [contradiction|contradiction|exact X|contradiction].
Qed.

(* A new header is built only with parents in hand and either the maximum delay has passed, or there are enough batches
   (or the minimum delay has passed) and: the parents are the genesis certificates, or the round is even and they contain
   the leader's certificate, or the round is odd and this node is the next leader, or there was no leader to vote for, or
   f+1 parents vote for the leader, or 2f+1 do not. *)
Theorem C58_no_early_header : forall c prim st sch evs e h,
  let s := brun c (b_new c prim st sch) evs in
  (forall f, ~ In (BSched f) (evs ++ [e])) ->
  b_created (bstep c s e) = b_created s ++ [h] ->
  bh_parents h <> [] /\
  (b_maxt s = true \/ e = BMax \/
   exists r lead,
     r < bh_round h /\
     ((c_threshold c <= length (b_queue (pre c s e)))%nat \/ b_mint s = true \/ e = BMin) /\
     (bh_parents h = c_genesis c \/
      (N.even r = true /\ exists x, In x (bh_parents h) /\ bc_origin x = b_sched s r) \/
      (N.even r = false /\
       (b_sched s (r + 1) = c_me c \/ lead = None \/
        exists l, lead = Some l /\ (validity c <= votes_for c (bc_digest l) (bh_parents h) \/
                                    quorum c <= votes_against c (bc_digest l) (bh_parents h)))))).
Proof.
  intros c prim st sch evs e h s NS X.
  destruct (step_new c s e h X) as (D & E & E2). rewrite E, <- E2 in X.
  destruct (loop_end_new c (pre c s e) h X) as (P & -> & Q & Why).
  split; [exact Q|].
  assert (Hm : b_maxt (pre c s e) = true -> b_maxt s = true \/ e = BMax).
  { destruct e as [x w|cs q|cr rs| | | | | |v|f]; cbn [pre]; auto.
    - destruct (parents_shape c cs q s) as (r & pr & ps & l & a & -> & _). auto.
    - destruct (committed_shape rs s) as (ds & t & dn & ->). auto.
    - unfold write_record. destruct (b_pend s) as [[g [|]]|]; auto.
    - unfold task_done. destruct (b_pend s) as [[g [|]]|]; auto.
    - destruct (b_pend s); auto. }
  assert (Hn : b_mint (pre c s e) = true -> b_mint s = true \/ e = BMin).
  { destruct e as [x w|cs q|cr rs| | | | | |v|f]; cbn [pre]; auto.
    - destruct (parents_shape c cs q s) as (r & pr & ps & l & a & -> & _). auto.
    - destruct (committed_shape rs s) as (ds & t & dn & ->). auto.
    - unfold write_record. destruct (b_pend s) as [[g [|]]|]; auto.
    - unfold task_done. destruct (b_pend s) as [[g [|]]|]; auto.
    - destruct (b_pend s); auto. }
  assert (Nse : match e with BSched _ => False | _ => True end).
  { destruct e; try exact I. apply (NS f). apply in_app_iff. right. left. reflexivity. }
  assert (Hs : b_sched (pre c s e) = b_sched s).
  { destruct e as [x w|cs q|cr rs| | | | | |v|f]; cbn [pre]; try reflexivity.
    - destruct (parents_shape c cs q s) as (r & pr & ps & l & a & -> & _). reflexivity.
    - destruct (committed_shape rs s) as (ds & t & dn & ->). reflexivity.
    - unfold write_record. destruct (b_pend s) as [[g [|]]|]; reflexivity.
    - unfold task_done. destruct (b_pend s) as [[g [|]]|]; reflexivity.
    - destruct (b_pend s); reflexivity.
    - contradiction. }
  destruct Why as [Why|(Ad & Why)]; [destruct (Hm Why) as [Y|Y]; auto|].
  right; right. exists (b_round (pre c s e)), (b_leader (pre c s e)).
  split; [cbn [bh_round new_header]; apply next_round_gt|].
  split; [destruct Why as [Y|Y]; [left; exact Y|destruct (Hn Y); auto]|].
  assert (A : adv_ok c (pre c s e)).
  { apply adv_pre; [exact D|exact Nse|]. apply adv_run; [intros f Y; apply (NS f), in_app_iff; left; exact Y|].
    intros _ _ _. left. reflexivity. }
  assert (Dp : b_dead (pre c s e) = false).
  { apply pre_alive; [exact D|]. intros ->. cbn [pre] in *. rewrite fail_step in E by exact D.
    assert (F : b_created (bstep c s BFail) = b_created s) by (rewrite fail_step by exact D; cbn; destruct (b_pend s); reflexivity).
    rewrite fail_step in F by exact D. rewrite <- E, F in X. apply (f_equal (@length bhdr)) in X. rewrite E2, app_length in X. cbn in X. lia. }
  cbn [bh_parents new_header]. rewrite <- Hs.
  destruct (A Dp P Ad) as [G|G]; [left; exact G|right]. unfold go in G.
  destruct (N.even (b_round (pre c s e))) eqn:Ev; [left; split; [reflexivity|exact G]|right; split; [reflexivity|]].
  destruct G as [G|G]; [left; exact G|right]. destruct (b_leader (pre c s e)) as [l|]; [right; exists l; split; [reflexivity|exact G]|left; reflexivity].
Qed.
(* When the maximum delay passes and nothing is in flight, a header goes out: a new one if there are parents, otherwise
   the last one again; only a proposer that never proposed and has no parents stays silent. *)
Theorem C58_max_delay_proposes : forall c s,
  b_dead s = false -> b_pend s = None ->
  let s' := bstep c s BMax in
  (b_parents s <> [] -> b_round s < b_round s' /\ exists h, b_pend s' = Some (h, false) /\ bh_round h = b_round s') /\
  (b_parents s = [] -> forall h, b_store s = Some h -> b_pend s' = Some (h, false) /\ b_created s' = b_created s) /\
  (b_pend s' = None -> b_parents s = [] /\ b_store s = None).
Proof.
  intros c s D P s'.
  assert (Nw : b_parents s <> [] -> b_round s < b_round s' /\ exists h, b_pend s' = Some (h, false) /\ bh_round h = b_round s').
  { intros Q. unfold s', bstep. rewrite D. unfold loop_end. cbn [b_pend set_timers]. rewrite P.
    unfold should_create. cbn [b_parents set_timers b_maxt]. destruct (b_parents s) as [|x ps] eqn:Eq; [contradiction Q; reflexivity|]. cbn [andb orb].
    set (t := set_timers s true (b_mint s)). assert (Qt : b_parents t <> []) by (cbn; rewrite Eq; discriminate).
    assert (Pt : b_pend t = None) by exact P. pose proof (next_round_gt t) as Lt.
    unfold propose_next. fold (next_round t).
    destruct (b_store t) as [h|] eqn:S.
    - destruct ((bh_round h =? next_round t) && (bh_epoch h =? c_epoch c)) eqn:M; cbn [b_round b_pend]; (split; [exact Lt|]);
        eexists; (split; [reflexivity|]).
      + apply andb_true_iff in M as [M _]. apply N.eqb_eq in M. exact M.
      + reflexivity.
    - cbn [b_round b_pend]. split; [exact Lt|]. eexists. split; reflexivity. }
  assert (Ol : b_parents s = [] -> forall h, b_store s = Some h -> b_pend s' = Some (h, false) /\ b_created s' = b_created s).
  { intros Q h S. unfold s', bstep. rewrite D. unfold loop_end. cbn [b_pend set_timers]. rewrite P.
    unfold should_create. cbn [b_parents set_timers b_maxt b_store]. rewrite Q, S. split; reflexivity. }
  split; [exact Nw|]. split; [exact Ol|]. intros X.
  destruct (b_parents s) as [|x ps] eqn:Q.
  - split; [reflexivity|]. destruct (b_store s) as [h|] eqn:S; [|reflexivity]. destruct (Ol eq_refl h eq_refl) as [Y _]. congruence.
  - destruct Nw as (_ & h & Y & _); [discriminate|congruence].
Qed.
(* When the certificates of the whole committee are in hand in an odd round, the proposer is ready to go on. *)
Theorem C58_full_committee_is_ready : forall c s cs,
  0 < c_size c -> N.even (b_round s) = false ->
  (forall x, In x (b_parents s ++ cs) -> c_member c (bc_origin x) = true) ->
  c_size c <= N.of_nat (length (b_parents s ++ cs)) ->
  b_adv (process_parents c cs (b_round s) s) = true.
Proof.
  intros c s cs Hn Ev Hm Hl. unfold process_parents. rewrite N.compare_refl. unfold ready. cbn [b_round set_parents]. rewrite Ev.
  cbn [b_adv set_adv]. unfold enough_votes. cbn [b_round b_sched b_leader b_parents set_parents].
  destruct (b_sched s (b_round s + 1) =? c_me c); [reflexivity|]. destruct (b_leader s) as [l|]; [|reflexivity].
  apply orb_true_iff. rewrite !N.leb_le. apply full_votes; [exact Hn|].
  rewrite votes_total, sum_power by exact Hm. exact Hl.
Qed.

(** concrete runs *)
Definition gen4 : list bcert := [mkBC 0 0 100 []; mkBC 1 0 101 []; mkBC 2 0 102 []; mkBC 3 0 103 []].
Definition exc : bcfg := mkCfg 1 3 4 (fun a => a <? 4) 1 2 gen4.
Definition exsch (r : N) : N := (r / 2) mod 4.
Definition par (r : N) : list bcert := [mkBC 0 r (100 + 10 * r) [100]; mkBC 1 r (101 + 10 * r) [100]; mkBC 2 r (102 + 10 * r) [100]].
(* three digests, two headers (the second reported, the first given up), and the given-up batches in a third header *)
Definition exevs : list bev :=
  [BDigest 10 0; BDigest 11 0; BDigest 12 0; BWrite; BDone; BParents (par 1) 1; BWrite; BDone;
   BReport 4 [2]; BParents (par 2) 2; BWrite; BDone; BReport 6 [3]].
Example C58_run_example :
  let s := brun exc (b_new exc 0 None exsch) exevs in
  map bh_payload (b_done s) = [[(11, 0); (12, 0)]; [(10, 0)]] /\ b_queue s = [] /\ b_dead s = false /\
  map bh_round (b_created s) = [1; 2; 3] /\ b_requeued s = [(10, 0)].
Proof. vm_compute. repeat split. Qed.
Example C58_hypotheses_met :
  along_b (fun s e => fresh_digest (rec_keys None) s e /\ calm exc s e) exc (b_new exc 0 None exsch) exevs /\
  along_b own_watch exc (b_new exc 0 None exsch) exevs.
Proof.
  split.
  - unfold exevs. cbn [along_b].
    repeat match goal with |- _ /\ _ => split | |- True => exact I end;
      try (vm_compute; tauto);
      try (intros h b; vm_compute; intros E; try discriminate E; injection E as <- <-; intros X;
           repeat (destruct X as [X|X]; [discriminate X|]); exact X).
    all: try (vm_compute; intuition congruence).
    all: split; [intros r [<-|[]]; eexists; vm_compute; ((left; reflexivity) || (right; left; reflexivity))
                |intros h b; vm_compute; intros E; discriminate E].
  - unfold exevs. cbn [along_b]. repeat match goal with |- _ /\ _ => split | |- True => exact I end; try exact I;
      cbn [own_watch]; intros x [<-|[<-|[<-|[]]]]; reflexivity.
Qed.
(* a restart with a recorded header: it goes out first, then a new one *)
Example C58_restart_example :
  let h := mkBH 5 3 [(40, 0)] gen4 in
  let s := brun exc (b_new exc 2 (Some h) exsch) [BDigest 41 0; BWrite; BDone; BParents (par 4) 4; BParents (par 5) 5] in
  b_sent s = [h] /\ map bh_round (b_created s) = [6].
Proof. vm_compute. split; reflexivity. Qed.
(* a full committee in round 1 whose votes are split *)
Example C58_full_committee_example :
  let s := mkB 1 1 (par 1) (Some (mkBC 0 0 100 [])) [] [] false None false false false None exsch [] [] [] [] [] in
  N.even (b_round s) = false /\ c_size exc <= N.of_nat (length (b_parents s ++ [mkBC 3 1 113 []])).
Proof. vm_compute. split; [reflexivity|discriminate]. Qed.
(* a waiting digest behind two others, batch limit two: it is in the second new header *)
Example C58_progress_example :
  let s := brun exc (b_new exc 0 None exsch) [BDigest 9 0; BDigest 10 0; BDigest 11 0; BDigest 12 0] in
  let evs := [BWrite; BDone; BParents (par 1) 1; BWrite; BDone; BParents (par 2) 2; BMax] in
  b_queue s = [(10, 0); (11, 0)] ++ (12, 0) :: [] /\
  (length [(10, 0); (11, 0)] + (length (b_requeued (brun exc s evs)) - length (b_requeued s))
   < length (skipn (length (b_created s)) (b_created (brun exc s evs))) * c_max exc)%nat.
Proof. vm_compute. split; [reflexivity|lia]. Qed.

(* Without the assumptions of C58_committed_once a batch can be in two headers that are both reported as committed. Here
   the first report arrives before the loop has registered the header it names. *)
Theorem C58_report_overtakes_refuted : exists evs h g d,
  let s := brun exc (b_new exc 0 None exsch) evs in
  In h (b_sent s) /\ In g (b_sent s) /\ h <> g /\ carries h d /\ carries g d /\
  (exists cr rs, In (BReport cr rs) evs /\ In (bh_round h) rs) /\
  (exists cr rs, In (BReport cr rs) evs /\ In (bh_round g) rs).
Proof.
  pose (evs := [BDigest 10 0; BWrite; BReport 2 [1]; BDone; BParents (par 1) 1; BMin; BWrite; BDone; BReport 4 [2];
                BParents (par 2) 2; BMax; BWrite; BDone; BReport 6 [3]]).
  exists evs, (mkBH 1 3 [(10, 0)] gen4), (mkBH 3 3 [(10, 0)] (par 2)), 10. cbn zeta.
  split; [vm_compute; left; reflexivity|]. split; [vm_compute; right; right; left; reflexivity|].
  split; [intros X; discriminate X|]. split; [vm_compute; left; reflexivity|]. split; [vm_compute; left; reflexivity|].
  split; [exists 2, [1]; split; [right; right; left; reflexivity|left; reflexivity]|].
  exists 6, [3]. split; [unfold evs; do 13 right; left; reflexivity|left; reflexivity].
Qed.
(* Here the last header is committed, sent again after the maximum delay, and then given up. *)
Theorem C58_resend_after_commit_refuted : exists evs h g d,
  let s := brun exc (b_new exc 0 None exsch) evs in
  In h (b_done s) /\ In g (b_done s) /\ h <> g /\ carries h d /\ carries g d.
Proof.
  pose (evs := [BDigest 10 0; BWrite; BDone; BReport 2 [1]; BMax; BWrite; BDone; BParents (par 1) 1; BMin; BWrite; BDone;
                BReport 4 [2]; BParents (par 2) 2; BMax; BWrite; BDone; BReport 6 [3]]).
  exists evs, (mkBH 1 3 [(10, 0)] gen4), (mkBH 3 3 [(10, 0)] (par 2)), 10. cbn zeta.
  split; [vm_compute; left; reflexivity|]. split; [vm_compute; right; right; left; reflexivity|].
  split; [intros X; discriminate X|]. split; vm_compute; left; reflexivity.
Qed.
(* A proposer that restarts at published round 7 without a recorded header builds a round-8 header on the genesis
   certificates, which no peer can accept. *)
Theorem C58_restart_genesis_parents_refuted : exists h x,
  In h (b_created (brun exc (b_new exc 7 None exsch) [BMax])) /\ bh_round h = 8 /\ In x (bh_parents h) /\ bc_round x = 0.
Proof.
  exists (mkBH 8 3 [] gen4), (mkBC 0 0 100 []). split; [vm_compute; left; reflexivity|].
  split; [reflexivity|]. split; [left; reflexivity|reflexivity].
Qed.
(* The timer flag is not cleared when the sending completes: if the maximum delay passes while a header is being sent, the
   same header is sent again at once, although it has only just gone out. *)
Theorem C58_timer_in_flight_refuted : exists h,
  let s := brun exc (b_new exc 0 None exsch) [BDigest 10 0; BMax; BWrite; BDone] in
  b_sent s = [h] /\ b_pend s = Some (h, false).
Proof. exists (mkBH 1 3 [(10, 0)] gen4). vm_compute. split; reflexivity. Qed.
