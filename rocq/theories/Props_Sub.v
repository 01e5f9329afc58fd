(** C41: the subscriber of a node, across epochs, crashes and restarts. *)
From Verif Require Import Util OutModel OutSpec OutProofs SubModel SubSpec SubProofs.
Local Open Scope nat_scope.

Section T.
Variable bd : N -> N.
Variable addr : N -> N -> option N.
Variable hd : N -> subdag -> N -> N.
Variable gd : N.
Variable bound : N -> N.
Variable G : nat -> subdag.
Variable resume : N -> option subdag -> nat.
Hypothesis HE : epochs_advance bound G.
Hypothesis HR : resumes_after G resume.
Hypothesis HD : digest_fixes_number hd.

Notation run := (run bd addr hd gd bound G resume).
Notation step := (step bd addr hd gd bound G resume).
Notation good := (good_history bd addr hd gd bound G resume fresh).
Notation good_event := (good_event bd addr hd gd G).
Notation chain := (is_chain bd addr hd gd G).

Lemma reach evs : good evs -> inv bd addr hd gd bound G (run evs).
Proof. intros H. apply (run_inv bd addr hd gd bound G resume HE HR HD); auto. apply inv_fresh. Qed.

(** What a node has saved is the chain: output number i+1 is the one of the i-th agreed sub-dag,
    whatever the interleaving, crashes, restarts and epoch changes. *)
Theorem C41_saved_is_the_chain evs : good evs -> chain (saved (n_packs (run evs))).
Proof. intros H. apply (reach evs H). Qed.

(** What was executed, followed by what the engine still holds in its queue, is a prefix of the chain:
    every output exactly once and in order, none before the previous one. *)
Theorem C41_executed_once_in_order evs : good evs ->
  chain (n_exec (run evs) ++ match n_up (run evs) with Some v => v_eng v | None => [] end).
Proof.
  intros H. destruct (reach evs H) as [_ [C U]]. destruct (n_up (run evs)) as [v|].
  - destruct U as [p [r [Ep [_ [_ [EL _]]]]]]. rewrite Ep, EL, !app_assoc, <- app_assoc in C. eapply chain_app; exact C.
  - rewrite app_nil_r. destruct U as [_ [[_ [_ E]]|[p [r [rest [Ep [EL _]]]]]]].
    + rewrite E. intros i o Hi. destruct i; discriminate Hi.
    + rewrite Ep, EL in C. eapply chain_app; exact C.
Qed.

(** Nothing is executed before it is safely on disk: at every moment a crash would leave packs that
    begin with everything executed so far and everything handed to the engine. *)
Theorem C41_executed_is_durable evs : good evs ->
  exists rest, after_kill (n_packs (run evs)) =
    n_exec (run evs) ++ match n_up (run evs) with Some v => v_eng v ++ v_chan v | None => [] end ++ rest.
Proof.
  intros H. destruct (reach evs H) as [_ [C U]]. destruct (n_up (run evs)) as [v|].
  - destruct U as [p [r [Ep [_ [Hb [EL [_ [PI _]]]]]]]]. rewrite Ep. cbn [after_kill].
    assert (K : pk_kept p <= length (pk_outs p) /\ length (pk_outs p) <= pk_kept p + length (pend (v_phase v))).
    { unfold phase_inv in PI. destruct (v_phase v); cbn [pend length]; destruct PI as [K _]; lia. }
    assert (E : saved r ++ firstn (pk_kept p) (pk_outs p) = firstn (length (saved r) + pk_kept p) (saved (p :: r))).
    { cbn [saved]. rewrite firstn_app, (firstn_all2 (saved r)) by lia. f_equal. f_equal. lia. }
    assert (L : length (saved (p :: r)) = length (saved r) + length (pk_outs p)) by (cbn [saved]; apply app_length).
    rewrite E, EL, !app_assoc. rewrite EL, !app_length in L.
    exists (firstn (length (saved r) + pk_kept p - length ((n_exec (run evs) ++ v_eng v) ++ v_chan v)) (pend (v_phase v))).
    rewrite firstn_app, (firstn_all2 (_ ++ v_chan v)) by (rewrite !app_length; lia). rewrite <- !app_assoc. reflexivity.
  - destruct U as [_ [[E1 [_ E2]]|[p [r [rest [Ep [EL [_ [Hk _]]]]]]]]].
    + rewrite E1, E2. exists []. reflexivity.
    + exists rest. rewrite Ep. cbn [after_kill]. rewrite Hk, firstn_all. cbn [app]. exact EL.
Qed.

(** The node never refuses its own chain: it goes down only when asked to, when killed, or when the
    workers cannot deliver the batches; and from every such state it comes up again. *)
Theorem C41_keeps_running evs e : good (evs ++ [e]) ->
  match n_up (run evs) with
  | Some _ => n_up (run (evs ++ [e])) = None ->
              e = Quit \/ (exists i, e = Kill i) \/
              exists a v s parent num w, e = Fetched a /\ n_up (run evs) = Some v /\ v_wait v = (s, parent, num) :: w /\
                fetch_batches bd (addr (v_epoch v)) (fun _ => a) s parent num = None
  | None => forall active, e = Restart active -> n_up (run (evs ++ [e])) <> None
  end.
Proof.
  intros H. assert (Hs : good evs /\ good_event (run evs) e).
  { unfold run. revert H. generalize fresh. induction evs as [|x t IH]; intros n H; simpl in *; [tauto|].
    destruct H as [H1 H2]. destruct (IH _ H2). auto. }
  destruct Hs as [H1 H2].
  destruct (step_inv bd addr hd gd bound G resume HE HR HD (run evs) e (reach evs H1) H2) as [_ S].
  assert (Er : run (evs ++ [e]) = step (run evs) e) by (unfold SubModel.run; rewrite fold_left_app; reflexivity).
  rewrite Er. destruct (n_up (run evs)) as [v|] eqn:U.
  - intros D. destruct (S D) as [->|[[i ->]|[a [-> F]]]]; auto.
    + right; left; eauto.
    + right; right. destruct F as [v' [s [pa [num [w [F1 F2]]]]]]. rewrite U in F1. injection F1 as <-. exists a, v, s, pa, num, w. tauto.
  - intros active ->. exact S.
Qed.

(** Which crash points are harmless, exactly: all but (a) after the slot was written and before the
    pack was synced, when the new slot value survives, and (b) after the pack was synced and before
    the slot was, when the old slot value survives and the output is the first of its epoch (of an
    epoch other than the old slot's). *)
Theorem C41_crash_points evs v i : good evs -> n_up (run evs) = Some v -> i < length (n_slots (run evs)) ->
  (good_event (run evs) (Kill i) <->
   match v_phase v with
   | Queued _ => i = 0
   | PackOk o => i = 0 -> fst (nth 0 (n_slots (run evs)) (0%N, 0%N)) = sd_epoch (out_sub o)
   | _ => True
   end).
Proof.
  intros H Hup Hi. destruct (reach evs H) as [P [C U]]. rewrite Hup in U.
  destruct U as [p [r [Ep [Ee [Hb [EL [Ef [PI _]]]]]]]]. rewrite Ep in C, P.
  unfold SubSpec.good_event. rewrite Hup, Ep. cbn [after_kill].
  set (n := run evs) in *. clearbody n.
  assert (Hno : forall o L, slot_ok (sd_epoch (out_sub o), out_num o) L -> nth_error (saved (p :: r)) (length L) = Some o -> False).
  { intros o L [S1 _] Hn. destruct (chain_fields bd addr hd gd G _ _ _ C Hn) as [_ [B _]]. simpl in S1. lia. }
  assert (Hpend : forall o, v_phase v = Queued o \/ v_phase v = PackOk o -> nth_error (saved (p :: r)) (length (n_exec n ++ v_eng v ++ v_chan v)) = Some o).
  { intros o Ho. rewrite EL. rewrite !app_assoc, nth_error_app2 by lia. rewrite Nat.sub_diag. destruct Ho as [-> | ->]; auto. }
  assert (Hfull : forall k, k = length (pk_outs p) -> saved r ++ firstn k (pk_outs p) = saved (p :: r)).
  { intros k ->. rewrite firstn_all. reflexivity. }
  assert (Hcut : pk_kept p + 1 = length (pk_outs p) -> length (pend (v_phase v)) = 1 -> saved r ++ firstn (pk_kept p) (pk_outs p) = n_exec n ++ v_eng v ++ v_chan v).
  { intros K L1. assert (Hl : length (saved (p :: r)) = length (saved r) + length (pk_outs p)) by (cbn [saved]; apply app_length).
    transitivity (firstn (length (saved r) + pk_kept p) (saved (p :: r))).
    - cbn [saved]. rewrite firstn_app, (firstn_all2 (saved r)) by lia. f_equal. f_equal. lia.
    - rewrite EL in Hl |- *. rewrite !app_assoc in *. rewrite app_length in Hl. rewrite firstn_app, firstn_all2 by lia.
      replace (length (saved r) + pk_kept p - _) with 0 by lia. now rewrite app_nil_r. }
  unfold phase_inv in PI. destruct (v_phase v) as [|o|o|o|o] eqn:Hph; cbn [pend] in *.
  - destruct PI as [K [S1 S2]]. split; auto. intros _ sl Hsl. rewrite S2 in Hsl. destruct i as [|[|i]]; try discriminate Hsl.
    injection Hsl as <-. rewrite (Hfull _ K), EL, app_nil_r. exact S1.
  - destruct PI as [K [S1 S2]]. split; auto. intros _ sl Hsl. rewrite S2 in Hsl. destruct i as [|[|i]]; try discriminate Hsl.
    injection Hsl as <-. rewrite (Hcut K eq_refl). exact S1.
  - destruct PI as [K [S1 [old [S2 S3]]]]. rewrite (Hcut K eq_refl), S2. split.
    + intros HG. destruct i as [|[|i]]; auto; exfalso.
      * specialize (HG _ eq_refl). rewrite S1 in HG. apply (Hno o _ HG). auto.
      * rewrite S2 in Hi. simpl in Hi. lia.
    + intros -> sl Hsl. injection Hsl as <-. exact S3.
  - destruct PI as [K [S1 [old [S2 S3]]]]. rewrite (Hfull _ K), S2. cbn [nth].
    assert (Hl : lastof (saved (p :: r)) = Some o) by (rewrite EL, !app_assoc; apply lastof_snoc). split.
    + intros HG ->. destruct (HG old eq_refl) as [_ F]. rewrite Hl in F. exact F.
    + intros HG sl Hsl. destruct i as [|[|i]]; [| |destruct i; discriminate Hsl].
      * injection Hsl as <-. destruct S3 as [S3 _]. split.
        -- rewrite EL, !app_assoc, app_length. rewrite <- !app_assoc. lia.
        -- rewrite Hl. auto.
      * injection Hsl as <-. rewrite S1. apply (slot_of_last bd addr hd gd G); auto.
  - destruct PI as [K [S1 S2]]. split; auto. intros _ sl Hsl. rewrite S2 in Hsl. destruct i as [|[|i]]; try discriminate Hsl.
    injection Hsl as <-. rewrite (Hfull _ K), S1. apply (slot_of_last bd addr hd gd G); auto.
    rewrite EL, !app_assoc. apply lastof_snoc.
Qed.
End T.

(** Any two nodes (with different schedules, crashes, modes and recovery procedures): where both have
    executed a k-th output it is the same one, if batch digests do not collide. *)
Theorem C41_two_nodes_agree bd addr hd gd bound G resume1 resume2 evs1 evs2 k o1 o2 :
  epochs_advance bound G -> resumes_after G resume1 -> resumes_after G resume2 -> digest_fixes_number hd ->
  (forall a b, bd a = bd b -> a = b) ->
  good_history bd addr hd gd bound G resume1 fresh evs1 ->
  good_history bd addr hd gd bound G resume2 fresh evs2 ->
  nth_error (n_exec (run bd addr hd gd bound G resume1 evs1)) k = Some o1 ->
  nth_error (n_exec (run bd addr hd gd bound G resume2 evs2)) k = Some o2 -> o1 = o2.
Proof.
  intros HE H1 H2 HD Hb G1 G2 N1 N2.
  pose proof (C41_executed_once_in_order _ _ _ _ _ _ _ HE H1 HD _ G1) as C1.
  pose proof (C41_executed_once_in_order _ _ _ _ _ _ _ HE H2 HD _ G2) as C2.
  apply chain_app in C1. apply chain_app in C2.
  specialize (C1 _ _ N1). specialize (C2 _ _ N2).
  eapply output_for_unique; eauto.
Qed.

(* ---------- a concrete node ---------- *)
Definition ybd (b : N) : N := (b + 100)%N.
Definition yaddr (e a : N) : option N := if (a <? 4)%N then Some (a + 50)%N else None.
Definition yhd (p : N) (s : subdag) (m : N) : N := (m + 1000)%N.
Definition ybound (e : N) : N := (10 * (e + 1))%N.
(** Two sub-dags per epoch, each with one batch; the second closes the epoch. *)
Definition yG (i : nat) : subdag :=
  let k := N.of_nat i in
  {| sd_hdrs := [{| oh_author := 1; oh_payload := [k + 100]%N |}; {| oh_author := 2; oh_payload := [] |}];
     sd_epoch := N.div2 k; sd_ts := 5 * k + (if N.even k then 5 else 5); sd_id := k |}.
Definition yresume (e : N) (last : option subdag) : nat :=
  match last with Some s => S (N.to_nat (sd_id s)) | None => N.to_nat (2 * e) end.
Definition yrun := run ybd yaddr yhd 1000 ybound yG yresume.
Definition ygood := good_history ybd yaddr yhd 1000 ybound yG yresume fresh.
Definition answer (b : N) : ev := Fetched (Some [(b + 100, b)%N]).
(** Save, send, forward and execute the next sub-dag, batch [b]. *)
Definition saveit (b : N) : list ev := [Recv; answer b; SlotUpd; PackSync; SlotSync].
Definition full (b : N) : list ev := saveit b ++ [Send; Forward; Exec].

Lemma div2_pair k : k = (2 * N.div2 k + (if N.even k then 0 else 1))%N.
Proof. destruct k as [|[p|p|]]; simpl; auto; lia. Qed.
Lemma even_succ k : N.even (k + 1) = negb (N.even k).
Proof. rewrite N.add_1_r, N.even_succ. rewrite <- N.negb_even. auto. Qed.
Lemma y_env : epochs_advance ybound yG /\ resumes_after yG yresume /\ digest_fixes_number yhd /\
  (forall a b, ybd a = ybd b -> a = b).
Proof.
  assert (D : forall k, N.even k = true -> N.div2 (k + 1) = N.div2 k).
  { intros k E. pose proof (div2_pair k) as A. pose proof (div2_pair (k + 1)) as B. rewrite even_succ in B. rewrite E in A, B. cbn [negb] in B. lia. }
  assert (D' : forall k, N.even k = false -> N.div2 (k + 1) = (N.div2 k + 1)%N).
  { intros k E. pose proof (div2_pair k) as A. pose proof (div2_pair (k + 1)) as B. rewrite even_succ in B. rewrite E in A, B. cbn [negb] in B. lia. }
  split; [|split; [split|split]].
  - split; [reflexivity|]. intros i. unfold yG, ybound; cbn [sd_epoch sd_ts]. rewrite Nat2N.inj_succ, <- N.add_1_r.
    set (k := N.of_nat i). pose proof (div2_pair k) as P. destruct (N.even k) eqn:E.
    + rewrite D by auto. destruct (N.leb_spec (10 * (N.div2 k + 1)) (5 * k + 5)); auto. lia.
    + rewrite D' by auto. destruct (N.leb_spec (10 * (N.div2 k + 1)) (5 * k + 5)); auto. lia.
  - intros i. unfold yresume, yG; cbn [sd_id]. lia.
  - intros i H. unfold yresume, yG; cbn [sd_epoch]. pose proof (div2_pair (N.of_nat i)) as P.
    destruct (N.even (N.of_nat i)) eqn:E; [lia|]. exfalso.
    assert (Hi : i <> 0) by (intros ->; discriminate E).
    apply (H (i - 1)); [lia|]. unfold yG; cbn [sd_epoch].
    assert (Ei : N.of_nat i = (N.of_nat (i - 1) + 1)%N) by lia. rewrite Ei in E |- *. rewrite even_succ in E.
    symmetry. apply D. destruct (N.even (N.of_nat (i - 1))); auto.
  - intros p s m p' s' m' E. unfold yhd in E. lia.
  - intros a b E. unfold ybd in E. lia.
Qed.

(** Epoch 0 with a crash inside the first save (lost, redone), a mode change with an output in the
    channel, a kill with an output saved and not executed, the epoch change, and the first output of
    epoch 1 followed as an observer. *)
Definition y2 : output :=
  {| out_sub := yG 2; out_parent := 1002; out_num := 3; out_digests := [102]%N;
     out_batches := [{| cb_addr := 51; cb_batches := [2]%N |}; {| cb_addr := 52; cb_batches := [] |}] |}.
Definition yhist : list ev :=
  [Restart true; Recv; answer 0; Kill 0; Restart true] ++ saveit 0 ++ [Send; Reenter true; Exec] ++
  saveit 1 ++ [Kill 0; Restart true; Exec; NextEpoch false; SyncOut y2; SlotUpd; PackSync; SlotSync; Send; Forward; Exec].
Ltac ygood_tac :=
  vm_compute;
  repeat match goal with
         | |- _ /\ _ => split
         | |- True => exact I
         | |- Forall _ _ => constructor
         | |- _ = _ => reflexivity
         | |- forall _, _ => intros
         | H : Some _ = Some _ |- _ => injection H as <-
         end.
Example C41_example_history : ygood yhist /\ map out_num (n_exec (yrun yhist)) = [1; 2; 3]%N /\
  map sd_id (map out_sub (n_exec (yrun yhist))) = [0; 1; 2]%N /\ n_slot (yrun yhist) = (1, 3)%N /\
  map (fun o => map cb_batches (out_batches o)) (n_exec (yrun yhist)) = [[[0]; []]; [[1]; []]; [[2]; []]]%N.
Proof.
  split; [|vm_compute; auto].
  ygood_tac; try (left; reflexivity); try discriminate.
  repeat constructor.
Qed.


(** Excluded crash 1.  The slot is written before the pack is synced.  If the operating system writes
    the slot page back first and the machine dies, the slot names an output the pack no longer
    holds; when the output is produced again, saving it is refused as old and the node shuts down, on
    every later attempt. *)
Definition yslot_ahead : list ev := [Restart true; Recv; answer 0; SlotUpd; Kill 1].
Definition again : list ev := [Restart true; Recv; answer 0].
Theorem C41_slot_ahead_refuted : forall k,
  let n := fold_left (step ybd yaddr yhd 1000 ybound yG yresume) (concat (repeat again k)) (yrun yslot_ahead) in
  n_up n = None /\ saved (n_packs n) = [] /\ n_exec n = [] /\ n_slot n = (0, 1)%N.
Proof.
  set (st := fold_left (step ybd yaddr yhd 1000 ybound yG yresume)).
  assert (F : st again (yrun yslot_ahead) = yrun yslot_ahead) by (vm_compute; reflexivity).
  assert (K : forall k, st (concat (repeat again k)) (yrun yslot_ahead) = yrun yslot_ahead).
  { induction k as [|k IH]; [reflexivity|]. cbn [repeat concat]. unfold st in *. rewrite fold_left_app, F. exact IH. }
  intros k n. unfold n. fold st. rewrite K. vm_compute. auto.
Qed.

(** Excluded crash 2.  The first output of epoch 1 (number 3) is in the synced pack, but the slot
    still names epoch 0.  On restart the node looks for its latest header in epoch 0's pack, so
    it numbers the next sub-dag 3 again on the wrong parent; saving that is silently ignored, it is
    broadcast, and the node executes sub-dag 3 as number 3: sub-dag 2 is never executed. *)
Definition ystale : list ev :=
  [Restart true] ++ full 0 ++ full 1 ++ [NextEpoch true; Recv; answer 2; SlotUpd; PackSync; Kill 0; Restart true] ++
  [Recv; answer 3; SlotUpd; PackSync; SlotSync; Send; Forward; Exec].
Theorem C41_stale_slot_refuted :
  map (fun o => (out_num o, sd_id (out_sub o))) (n_exec (yrun ystale)) = [(1, 0); (2, 1); (3, 3)]%N /\
  map (fun o => (out_num o, sd_id (out_sub o))) (saved (n_packs (yrun ystale))) = [(1, 0); (2, 1); (3, 2)]%N.
Proof. vm_compute. auto. Qed.

(** Excluded mode change 1.  The save task is dropped after the append and before the slot update;
    the output is in the pack, so the restarted subscriber goes on with the next one, but nobody
    hands it to the engine.  A second mode change while the next one is in the channel forwards that
    one without the continuity check: an output is skipped. *)
Definition ymode : list ev := [Restart true; Recv; answer 0; Reenter true] ++ saveit 1 ++ [Send; Reenter true; Exec].
Theorem C41_mode_change_skips_refuted :
  map (fun o => (out_num o, sd_id (out_sub o))) (n_exec (yrun ymode)) = [(2, 1)]%N.
Proof. vm_compute. auto. Qed.
(** Without the second mode change the continuity check sees the gap and shuts the node down. *)
Theorem C41_mode_change_gap_refuted :
  n_up (yrun ([Restart true; Recv; answer 0; Reenter true] ++ saveit 1 ++ [Send; Forward])) = None.
Proof. vm_compute. auto. Qed.

(** Excluded mode change 2.  The mode changes while the save waits for the pack sync: the output is
    already covered by the in-memory slot and readable, so it is executed although it is not on
    disk.  If the machine dies now, the executed output is in no pack; the node takes the chain to
    be empty, and executes the output a second time. *)
Definition yearly : list ev := [Restart true; Recv; answer 0; SlotUpd; Reenter true; Exec; Kill 0; Restart true] ++ full 0.
Theorem C41_executed_before_durable_refuted :
  map (fun o => (out_num o, sd_id (out_sub o))) (n_exec (yrun yearly)) = [(1, 0); (1, 0)]%N.
Proof. vm_compute. auto. Qed.
