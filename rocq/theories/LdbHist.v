(* Histories of the layered database: client calls, turns of the background thread (each with the outcome of
   its I/O), and crashes. *)
From Verif Require Import Util LdbModel LdbProofs.
Local Open Scope N_scope.

Section Hist.
Context {V : Type}.
Notation ldb := (ldb V).

Inductive lev :=
| EWrite (o : op V)        (* insert / remove / clear_table, inside or outside a transaction *)
| EBegin | ECommit | EDrop (* write_txn, commit, transaction dropped without commit *)
| EBarrier (id : N)        (* persist *)
| ECaughtUp                (* sync_persist *)
| ERun (ok : bool)         (* the background thread handles one message; its I/O succeeds or fails *)
| ECrash.                  (* process dies and reopens *)

Definition lstep (d : ldb) (e : lev) : ldb :=
  match e with
  | EWrite o => l_do o d
  | EBegin => l_send MStart d
  | ECommit => l_send MCommit d
  | EDrop => l_send MEnd d
  | EBarrier i => l_send (MBarrier i) d
  | ECaughtUp => l_send MCaughtUp d
  | ERun ok => l_run ok d
  | ECrash => l_crash d
  end.
Definition lrun (d : ldb) (evs : list lev) : ldb := fold_left lstep evs d.
Definition writes (evs : list lev) : list (op V) := flat_map (fun e => match e with EWrite o => [o] | _ => [] end) evs.
Definition barriers (evs : list lev) : list N := flat_map (fun e => match e with EBarrier i => [i] | _ => [] end) evs.

Lemma lrun_app d a b : lrun d (a ++ b) = lrun (lrun d a) b.
Proof. apply fold_left_app. Qed.

Definition base (d : ldb) : Prop := l_full d = true /\ coherent d.
Lemma base_step d e : base d -> base (lstep d e).
Proof.
  intros [H1 H2]. destruct e; cbn [lstep].
  - split; [exact H1|apply coherent_do; exact H2].
  - split; [exact H1|apply coherent_send; [reflexivity|exact H2]].
  - split; [exact H1|apply coherent_send; [reflexivity|exact H2]].
  - split; [exact H1|apply coherent_send; [reflexivity|exact H2]].
  - split; [exact H1|apply coherent_send; [reflexivity|exact H2]].
  - split; [exact H1|apply coherent_send; [reflexivity|exact H2]].
  - split; [rewrite full_run; exact H1|apply coherent_run; assumption].
  - split; [exact H1|apply coherent_crash; exact H1].
Qed.
Lemma base_run evs : forall d, base d -> base (lrun d evs).
Proof. induction evs as [|e evs IH]; intros d H; [exact H|]. cbn. apply IH, base_step, H. Qed.
Lemma base_open disk : base (l_open true disk).
Proof. split; [reflexivity|apply coherent_open]. Qed.

Lemma step_settled k P d e : base d -> Forall (op_ok k P) (writes [e]) -> settled k P d -> settled k P (lstep d e).
Proof.
  intros [H1 H2] Hw Hs. destruct e; cbn [lstep].
  - inversion Hw; subst. apply do_settled; assumption.
  - apply send_settled; [reflexivity|assumption].
  - apply send_settled; [reflexivity|assumption].
  - apply send_settled; [reflexivity|assumption].
  - apply send_settled; [reflexivity|assumption].
  - apply send_settled; [reflexivity|assumption].
  - apply run_settled; assumption.
  - apply crash_settled; assumption.
Qed.
Lemma run_settled_hist k P evs : forall d, base d -> Forall (op_ok k P) (writes evs) -> settled k P d -> settled k P (lrun d evs).
Proof.
  induction evs as [|e evs IH]; intros d Hb Hw Hs; [exact Hs|].
  assert (Hw' : Forall (op_ok k P) (writes [e]) /\ Forall (op_ok k P) (writes evs)).
  { unfold writes in *. cbn [flat_map] in *. rewrite app_nil_r. apply Forall_app. exact Hw. }
  destruct Hw' as [W1 W2]. cbn. apply IH; [apply base_step; exact Hb|exact W2|apply step_settled; assumption].
Qed.

(* a waiting barrier with no crash in between *)
Definition no_crash (evs : list lev) : Prop := ~ In ECrash evs.
Lemma run_waiting_hist k P b evs : forall d, base d -> no_crash evs -> Forall (op_ok k P) (writes evs) ->
  waiting k P b d -> waiting k P b (lrun d evs).
Proof.
  induction evs as [|e evs IH]; intros d Hb Hn Hw Hs; [exact Hs|].
  assert (Hw' : Forall (op_ok k P) (writes [e]) /\ Forall (op_ok k P) (writes evs)).
  { unfold writes in *. cbn [flat_map] in *. rewrite app_nil_r. apply Forall_app. exact Hw. }
  destruct Hw' as [W1 W2]. cbn.
  assert (Hn' : no_crash evs) by (intros H; apply Hn; right; exact H).
  assert (Hc : e <> ECrash) by (intros H; apply Hn; left; exact H).
  apply IH; [apply base_step; exact Hb|exact Hn'|exact W2|].
  destruct e; cbn [lstep].
  - inversion W1; subst. apply do_waiting; assumption.
  - apply send_waiting; [reflexivity|assumption].
  - apply send_waiting; [reflexivity|assumption].
  - apply send_waiting; [reflexivity|assumption].
  - apply send_waiting; [reflexivity|assumption].
  - apply send_waiting; [reflexivity|assumption].
  - apply run_waiting; [exact (proj1 Hb)|assumption].
  - contradiction.
Qed.

(* identifiers *)
Lemma ids_step d e : e <> ECrash -> Permutation (all_ids (lstep d e)) (barriers [e] ++ all_ids d).
Proof.
  intros Hc. destruct e; cbn [lstep]; try (etransitivity; [apply all_ids_send|reflexivity]).
  - etransitivity; [apply all_ids_run|reflexivity].
  - contradiction.
Qed.
Lemma ids_crash (d : ldb) : all_ids (l_crash d) = [].
Proof. reflexivity. Qed.
Lemma barriers_cons e evs : barriers (e :: evs) = barriers [e] ++ barriers evs.
Proof. unfold barriers. cbn [flat_map]. rewrite app_nil_r. reflexivity. Qed.
Lemma ids_run evs : forall d, NoDup (barriers evs ++ all_ids d) -> NoDup (all_ids (lrun d evs)).
Proof.
  induction evs as [|e evs IH]; intros d H; [exact H|]. cbn. apply IH.
  assert (e = ECrash \/ e <> ECrash) as [->|Hc] by (destruct e; auto; right; discriminate).
  - cbn [lstep]. rewrite ids_crash, app_nil_r. rewrite barriers_cons in H. apply NoDup_app_elim in H as [H _].
    exact H.
  - rewrite barriers_cons in H. eapply Permutation_NoDup; [|exact H].
    rewrite (ids_step d e Hc). rewrite <- app_assoc. rewrite !app_assoc.
    apply Permutation_app_tail. apply Permutation_app_comm.
Qed.

(* reading *)
Lemma get_base (d : ldb) k v : l_mem d k = Some v -> l_get d k = Some v.
Proof. unfold l_get. intros ->. reflexivity. Qed.
Lemma settled_get k P (d : ldb) : settled k P d -> P (l_get d k).
Proof. intros (H1 & H2 & _). unfold l_get. destruct (l_mem d k); assumption. Qed.

(* the durable guarantee of a barrier *)
Theorem barrier_durable (disk : table V) pre b post k (P : option V -> Prop) :
  NoDup (barriers (pre ++ EBarrier b :: post)) -> no_crash post ->
  P (l_mem (lrun (l_open true disk) pre) k) ->
  Forall (op_ok k P) (writes post) ->
  In (b, true) (l_acks (lrun (l_open true disk) (pre ++ EBarrier b :: post))) ->
  forall later, Forall (op_ok k P) (writes later) ->
  P (l_get (lrun (l_open true disk) (pre ++ EBarrier b :: post ++ later)) k).
Proof.
  intros ND Hc Hp Hw Ha later Hl.
  set (d0 := l_open true disk) in *. set (d1 := lrun d0 pre) in *.
  assert (B1 : base d1) by (apply base_run, base_open).
  assert (Wt : waiting k P b (lstep d1 (EBarrier b))).
  { cbn [lstep]. apply barrier_waiting; [exact Hp|]. intros F. rewrite <- (proj2 B1 F k). exact Hp. }
  assert (Eq : lrun d0 (pre ++ EBarrier b :: post) = lrun (lstep d1 (EBarrier b)) post).
  { rewrite lrun_app. reflexivity. }
  rewrite Eq in Ha.
  assert (B2 : base (lstep d1 (EBarrier b))) by (apply base_step; exact B1).
  assert (S : settled k P (lrun (lstep d1 (EBarrier b)) post)).
  { eapply ack_settles; [|apply run_waiting_hist; eassumption|exact Ha].
    rewrite <- Eq. apply ids_run. unfold d0, all_ids. cbn. rewrite app_nil_r. exact ND. }
  change (pre ++ EBarrier b :: post ++ later) with (pre ++ (EBarrier b :: post) ++ later).
  rewrite app_assoc, lrun_app, Eq. apply settled_get. apply run_settled_hist; [|exact Hl|exact S].
  apply base_run. exact B2.
Qed.

(* failure latch *)
Lemma failed_step (d : ldb) e : e <> ECrash -> l_failed d = true -> l_failed (lstep d e) = true /\
  (forall i b, In (i, b) (l_acks (lstep d e)) -> In (i, b) (l_acks d) \/ b = false).
Proof.
  intros Hc Hf. destruct e; cbn [lstep]; try (split; [exact Hf|intros i b H; left; exact H]); [|contradiction].
  unfold l_run. destruct (l_queue d) as [|m q]; [auto|].
  assert (A : forall dd : ldb, l_failed dd = true -> l_acks dd = l_acks d ->
     l_failed (ack_pending dd) = true /\
     (forall i b, In (i, b) (l_acks (ack_pending dd)) -> In (i, b) (l_acks d) \/ b = false)).
  { intros dd F E. unfold ack_pending. cbn. rewrite F, E. split; [reflexivity|].
    intros i b H. apply in_app_iff in H as [H|H]; [auto|].
    apply in_map_iff in H as (y & H & _). right. inversion H. reflexivity. }
  destruct m; cbn [run_msg].
  - destruct (l_txn (set_queue d q)) as [[ops n]|]; cbn; rewrite Hf; auto.
  - destruct (l_txn (set_queue d q)) as [[ops n]|]; [|destruct ok]; cbn; rewrite ?Hf; auto.
  - unfold end_txn. destruct (l_txn (set_queue d q)) as [[ops n]|]; [destruct (n <=? 1)|].
    + apply A; cbn; rewrite ?Hf; reflexivity.
    + cbn. auto.
    + apply A; cbn; auto.
  - unfold end_txn. destruct (l_txn (set_queue d q)) as [[ops n]|]; [destruct (n <=? 1)|].
    + apply A; cbn; rewrite ?Hf; reflexivity.
    + cbn. auto.
    + apply A; cbn; auto.
  - destruct (l_txn (set_queue d q)) as [[ops n]|]; cbn; rewrite ?Hf; [auto|]. split; [reflexivity|].
    intros i b H. apply in_app_iff in H as [H|[H|[]]]; [auto|]. right. inversion H. reflexivity.
  - cbn. auto.
Qed.
Lemma failed_run evs : forall d, no_crash evs -> l_failed d = true ->
  l_failed (lrun d evs) = true /\
  (forall i b, In (i, b) (l_acks (lrun d evs)) -> In (i, b) (l_acks d) \/ b = false).
Proof.
  induction evs as [|e evs IH]; intros d Hn Hf; [auto|]. cbn.
  assert (Hn' : no_crash evs) by (intros H; apply Hn; right; exact H).
  assert (Hc : e <> ECrash) by (intros H; apply Hn; left; exact H).
  destruct (failed_step d e Hc Hf) as [F1 A1]. destruct (IH (lstep d e) Hn' F1) as [F2 A2].
  split; [exact F2|]. intros i b H. destruct (A2 i b H) as [H'|H']; auto.
Qed.

(* which failures set the latch: a write outside a transaction, a staged write, the physical commit *)
Lemma failure_latches (d : ldb) m q : l_queue d = m :: q ->
  (exists o, m = MOp o) \/ ((m = MCommit \/ m = MEnd) /\ exists ops n, l_txn d = Some (ops, n) /\ n <= 1) ->
  l_failed (l_run false d) = true.
Proof.
  intros Hq H. unfold l_run. rewrite Hq. destruct H as [[o ->]|[[->| ->] (ops & n & E & Hn)]];
  cbn [run_msg]; unfold end_txn, ack_pending, set_queue; cbn.
  - destruct (l_txn d) as [[ops n]|]; cbn; apply orb_true_r.
  - rewrite E. cbn. destruct (N.leb_spec n 1); [cbn; apply orb_true_r|lia].
  - rewrite E. cbn. destruct (N.leb_spec n 1); [cbn; apply orb_true_r|lia].
Qed.

(* memory view since the last write to the key *)
Lemma mem_untouched k evs : forall d, base d -> no_crash evs ->
  Forall (fun o => effect k o = None) (writes evs) -> l_mem (lrun d evs) k = l_mem d k.
Proof.
  induction evs as [|e evs IH]; intros d Hb Hn Hw; [reflexivity|].
  assert (Hw' : Forall (fun o => effect k o = None) (writes [e]) /\ Forall (fun o => effect k o = None) (writes evs)).
  { unfold writes in *. cbn [flat_map] in *. rewrite app_nil_r. apply Forall_app. exact Hw. }
  destruct Hw' as [W1 W2]. cbn.
  assert (Hn' : no_crash evs) by (intros H; apply Hn; right; exact H).
  assert (Hc : e <> ECrash) by (intros H; apply Hn; left; exact H).
  change (fold_left lstep evs (lstep d e)) with (lrun (lstep d e) evs).
  rewrite IH; [|apply base_step; exact Hb|exact Hn'|exact W2].
  destruct e; cbn [lstep]; try reflexivity.
  - inversion W1 as [|? ? W ?]; subst. unfold l_do. cbn. rewrite apply_effect, W. reflexivity.
  - rewrite mem_run by exact (proj1 Hb). reflexivity.
  - contradiction.
Qed.
End Hist.
Arguments lev : clear implicits.

Lemma durable_write {V} (disk : table V) a o mid b post later k w :
  effect k o = Some w ->
  no_crash mid -> no_crash post -> Forall (fun o' => effect k o' = None) (writes mid) ->
  NoDup (barriers (a ++ EWrite o :: mid ++ EBarrier b :: post)) ->
  In (b, true) (l_acks (lrun (l_open true disk) (a ++ EWrite o :: mid ++ EBarrier b :: post))) ->
  let v := l_get (lrun (l_open true disk) (a ++ EWrite o :: mid ++ EBarrier b :: post ++ later)) k in
  v = w \/ exists o', In o' (writes (post ++ later)) /\ effect k o' = Some v.
Proof.
  intros He Hm Hp Hk ND Ha. cbv zeta.
  set (P := fun v => v = w \/ exists o', In o' (writes (post ++ later)) /\ effect k o' = Some v).
  assert (E : forall t, a ++ EWrite o :: mid ++ EBarrier b :: t = (a ++ EWrite o :: mid) ++ EBarrier b :: t).
  { intros t. rewrite <- app_assoc. reflexivity. }
  rewrite E in ND, Ha |- *.
  assert (Hops : forall l, incl l (writes (post ++ later)) -> Forall (op_ok k P) l).
  { intros l Hl. apply Forall_forall. intros o' Ho. unfold op_ok. destruct (effect k o') as [v|] eqn:Ee; [|exact I].
    right. exists o'. split; [apply Hl; exact Ho|exact Ee]. }
  assert (Hw : writes (post ++ later) = writes post ++ writes later) by apply flat_map_app.
  apply (barrier_durable disk (a ++ EWrite o :: mid) b post k P ND Hp).
  - left. rewrite lrun_app. change (lrun (lrun (l_open true disk) a) (EWrite o :: mid))
      with (lrun (lstep (lrun (l_open true disk) a) (EWrite o)) mid).
    rewrite mem_untouched; [|apply base_step, base_run, base_open|exact Hm|exact Hk].
    cbn [lstep]. unfold l_do. cbn. rewrite apply_effect, He. reflexivity.
  - apply Hops. rewrite Hw. apply incl_appl, incl_refl.
  - exact Ha.
  - apply Hops. rewrite Hw. apply incl_appr, incl_refl.
Qed.

Lemma insert_visible {V} (disk : table V) a k v mid :
  no_crash mid -> Forall (fun o' => effect k o' = None) (writes mid) ->
  l_get (lrun (l_open true disk) (a ++ EWrite (Ins k v) :: mid)) k = Some v.
Proof.
  intros Hm Hk. apply get_base. rewrite lrun_app.
  change (lrun (lrun (l_open true disk) a) (EWrite (Ins k v) :: mid))
      with (lrun (lstep (lrun (l_open true disk) a) (EWrite (Ins k v))) mid).
  rewrite mem_untouched; [|apply base_step, base_run, base_open|exact Hm|exact Hk].
  cbn [lstep]. unfold l_do. cbn. assert (R : key_eqb k k = true) by (apply key_eqb_eq; reflexivity). rewrite R. reflexivity.
Qed.

(* after a caught-up, commit-complete idle state, a removal is visible too *)
Lemma latch_hist {V} (disk : table V) a rest :
  l_failed (lrun (l_open true disk) a) = true -> no_crash rest ->
  forall i, In (i, true) (l_acks (lrun (l_open true disk) (a ++ rest))) ->
            In (i, true) (l_acks (lrun (l_open true disk) a)).
Proof.
  intros F Hn i Hi. rewrite lrun_app in Hi. destruct (failed_run rest _ Hn F) as [_ H].
  destruct (H _ _ Hi) as [H'|H']; [exact H'|discriminate].
Qed.

(* a lost write is never acknowledged afterwards *)
Lemma lost_write_unacked {V} (disk : table V) a rest :
  (exists o q, l_queue (lrun (l_open true disk) a) = MOp o :: q) -> no_crash rest ->
  forall i, In (i, true) (l_acks (lrun (l_open true disk) (a ++ ERun false :: rest))) ->
            In (i, true) (l_acks (lrun (l_open true disk) a)).
Proof.
  intros (o & q & Hq) Hn i Hi.
  assert (F : l_failed (l_run false (lrun (l_open true disk) a)) = true).
  { eapply failure_latches; [exact Hq|left; eauto]. }
  rewrite lrun_app in Hi. change (lrun (lrun (l_open true disk) a) (ERun false :: rest))
    with (lrun (l_run false (lrun (l_open true disk) a)) rest) in Hi.
  destruct (failed_run rest _ Hn F) as [_ H]. destruct (H _ _ Hi) as [H'|H']; [|discriminate].
  revert H'. unfold l_run. rewrite Hq. cbn [run_msg]. unfold set_queue. cbn.
  destruct (l_txn (lrun (l_open true disk) a)) as [[ops n]|]; cbn; auto.
Qed.

Lemma stale_remove : exists (disk : table N) k, l_get (lrun (l_open true disk) [EWrite (Del k)]) k <> None.
Proof. exists (fun _ => Some 1), (0,0). vm_compute. discriminate. Qed.
Lemma stale_cache : exists (disk : table N) k, l_get (lrun (l_open false disk)
     [EWrite (Ins k 1); EWrite (Ins k 2); ERun true]) k = Some 1.
Proof. exists (fun _ => None), (0,0). vm_compute. reflexivity. Qed.
Lemma caught_up_not_durable : exists (disk : table N) k, l_get (lrun (l_open true disk)
     [EBegin; EWrite (Ins k 1); ECaughtUp; ERun true; ERun true; ERun true; ECrash]) k = None /\
  l_queue (lrun (l_open true disk) [EBegin; EWrite (Ins k 1); ECaughtUp; ERun true; ERun true; ERun true]) = [].
Proof. exists (fun _ => None), (0,0). vm_compute. split; reflexivity. Qed.
