(** C34: a restart recounts leaders exactly, and replays exactly what was not executed. *)
From Verif Require Import Util Types GasModel GasProofs RecountModel RecountSpec RecountProofs.
Local Open Scope N_scope.

(** In every history with any number of crashes, at every moment: the counter of every authority
    is the number of outputs of the current epoch it led among those the node has processed, and
    what is not processed is exactly what is queued. *)
Theorem C34_counts_exact : forall s, reach s ->
  exists processed, d_log (n_disk s) = processed ++ n_queue s /\
    forall a, lead_count (n_counts s) a = led a (in_epoch (n_pack s) processed).
Proof.
  intros s R. destruct (reach_inv s R) as (done & I). exists done. split; apply I.
Qed.

(** A crash at any moment (slot files fresh): startup succeeds, counts exactly the leaders of the
    registry's epoch up to the output that produced the chain tip, and queues exactly the saved
    outputs after it. *)
Theorem C34_restart_rebuilds : forall s, reach s -> hint_fresh (n_disk s) ->
  exists s' upto, step s Crash = Some s' /\ n_disk s' = n_disk s /\
    d_log (n_disk s) = upto ++ n_queue s' /\
    match d_tip (n_disk s) with None => upto = [] | Some o => exists l, upto = l ++ [o] end /\
    n_pack s' = d_epoch (n_disk s) /\
    forall a, lead_count (n_counts s') a = led a (in_epoch (d_epoch (n_disk s)) upto).
Proof.
  intros s R F. destruct (reach_inv s R) as (done & I).
  destruct (restart_ok s done I F) as (s' & done' & r & E & I' & Ed & Eq & Edk & Zr & Ep).
  exists s', done'. destruct I' as [J1 J2 J3 J4 J5 J6 J7 J8 J9]. rewrite Edk in J4.
  destruct Ep as [Ep Ct]. rewrite Ep in J6. auto 10.
Qed.

(** The crash is invisible once the replay is done: same chain, and (unless the node was about to
    clear its counters for the next epoch) the same counters. *)
Theorem C34_restart_invisible : forall s, reach s -> hint_fresh (n_disk s) ->
  exists s', step s Crash = Some s' /\
    n_disk (drained s') = n_disk (drained s) /\ n_queue (drained s') = [] /\
    (n_pack s = d_epoch (n_disk s) ->
       forall a, lead_count (n_counts (drained s')) a = lead_count (n_counts (drained s)) a) /\
    (n_pack s <> d_epoch (n_disk s) -> exists s2, step s Close = Some s2 /\ n_pack s' = n_pack s2 /\
       n_queue s' = n_queue s2 /\ n_disk s' = n_disk s2 /\
       forall a, lead_count (n_counts s') a = lead_count (n_counts s2) a).
Proof.
  intros s R F. destruct (reach_inv s R) as (done & I).
  destruct (restart_ok s done I F) as (s' & done' & r & E & I' & Ed & Eq & Edk & Zr & Ep & Ct).
  exists s'. split; [exact E|].
  destruct (drain_disk (length (n_queue s)) s eq_refl) as (A1 & A2 & A3 & A4).
  destruct (drain_disk (length (n_queue s')) s' eq_refl) as (B1 & B2 & B3 & B4).
  fold (drained s) in *. fold (drained s') in *.
  rewrite Eq, Edk in *. rewrite tip_after_skip in B1 by assumption. rewrite closings_skip in B2 by assumption.
  split.
  { destruct (n_disk (drained s')) as [l1 h1 t1 e1], (n_disk (drained s)) as [l2 h2 t2 e2].
    cbn [d_log d_hint d_tip d_epoch] in *. congruence. }
  destruct (drain_inv _ s done I eq_refl) as (u & Eu & Iu & Qu & Lu & Pu).
  destruct (drain_inv _ s' done' I' eq_refl) as (u' & Eu' & Iu' & Qu' & Lu' & Pu').
  fold (drained s) in Eu. fold (drained s') in Eu'. subst u u'.
  split; [exact Qu'|]. split.
  - intros Ee a. rewrite (i_cnt _ _ Iu a), (i_cnt _ _ Iu' a).
    rewrite Pu, Pu', Ep, <- Ee, Eq, Ed. f_equal. f_equal. apply app_assoc.
  - intros Ne. destruct I as [I1 I2 I3 I4 I5 I6 I7 [[I8 _]|[I8 I8q]] I9]; [contradiction|].
    cbn [step]. unfold close_epoch. rewrite I8q.
    destruct (N.ltb_spec (n_pack s) (d_epoch (n_disk s))) as [L|L]; [|lia].
    eexists. split; [reflexivity|]. cbn [n_pack n_queue n_disk n_counts].
    assert (Hin : forall o, In o done' -> o_epoch o <> d_epoch (n_disk s)).
    { intros o Ho. assert (In o (d_log (n_disk s))) as Hl.
      { rewrite I4, Ed. apply in_or_app. left. apply in_or_app. left. exact Ho. }
      destruct (I3 o Hl) as (_ & _ & _ & Le). lia. }
    assert (r = []) as ->.
    { destruct r as [|x r]; [reflexivity|exfalso].
      assert (In x (d_log (n_disk s))) as Hl.
      { rewrite I4, Ed. apply in_or_app. left. apply in_or_app. right. left. reflexivity. }
      destruct (I3 x Hl) as (_ & _ & _ & Le).
      pose proof (i_q _ _ I' x) as Q. rewrite Eq, Ep in Q.
      specialize (Q (or_introl eq_refl)). lia. }
    split; [exact Ep|]. split; [first [exact Eq|reflexivity]|]. split; [first [exact Edk|reflexivity]|].
    intros a. rewrite (i_cnt _ _ I' a), Ep. unfold in_epoch. rewrite filter_none; [reflexivity|].
    intros x Hx. apply N.eqb_neq, Hin, Hx.
Qed.

(** ** Witness: two epochs, an empty output, a crash in the middle of epoch 1. *)
Definition o1 := {| o_num := 1; o_epoch := 0; o_round := 2; o_leader := 7; o_batches := 1; o_close := false |}.
Definition o2 := {| o_num := 2; o_epoch := 0; o_round := 4; o_leader := 8; o_batches := 2; o_close := true |}.
Definition o3 := {| o_num := 3; o_epoch := 1; o_round := 2; o_leader := 8; o_batches := 1; o_close := false |}.
Definition o4 := {| o_num := 4; o_epoch := 1; o_round := 4; o_leader := 7; o_batches := 0; o_close := false |}.
Definition o5 := {| o_num := 5; o_epoch := 1; o_round := 6; o_leader := 8; o_batches := 3; o_close := false |}.
Fixpoint run (s : node) (l : list ev) : option node :=
  match l with [] => Some s | e :: t => match step s e with Some s' => run s' t | None => None end end.
Definition ex_trace := [Save o1; Flush; Save o2; Exec; Exec; Close; Save o3; Flush; Save o4; Exec; Exec; Save o5].

Ltac sav R o := match type of R with reach ?s =>
  let N := fresh in assert (N : next_output (d_log (n_disk s)) (n_pack s) o);
  [ unfold next_output; cbn [n_disk d_log n_pack length]; repeat (split; [vm_compute; reflexivity|]);
    let p := fresh in let Hp := fresh in let Ep := fresh in intros p Hp Ep;
    repeat (destruct Hp as [<-|Hp]; [try discriminate Ep; split; vm_compute; reflexivity|]); destruct Hp
  | let R' := fresh in
    (epose proof (reach_save _ o _ R N ltac:(vm_compute; reflexivity)) as R'); clear N; clear R; rename R' into R ] end.
Ltac stp R ctor := let R' := fresh in
  (epose proof (ctor _ _ R ltac:(vm_compute; reflexivity)) as R'); clear R; rename R' into R.

Example C34_ex_reach : exists s, run genesis ex_trace = Some s /\ reach s /\ hint_fresh (n_disk s) /\
  lead_count (n_counts s) 7 = 1 /\ lead_count (n_counts s) 8 = 1 /\
  exists s', step s Crash = Some s' /\ n_queue s' = [o4; o5] /\
    lead_count (n_counts s') 7 = 0 /\ lead_count (n_counts s') 8 = 1 /\
    lead_count (n_counts (drained s')) 7 = 1 /\ lead_count (n_counts (drained s')) 8 = 2.
Proof.
  pose proof reach0 as R. unfold genesis in R.
  sav R o1. stp R reach_flush. sav R o2. stp R reach_exec. stp R reach_exec. stp R reach_close.
  sav R o3. stp R reach_flush. sav R o4. stp R reach_exec. stp R reach_exec. sav R o5.
  match type of R with reach ?s => exists s end.
  split; [vm_compute; reflexivity|]. split; [exact R|].
  split; [vm_compute; reflexivity|]. split; [vm_compute; reflexivity|]. split; [vm_compute; reflexivity|].
  eexists. split; [vm_compute; reflexivity|]. repeat split; vm_compute; reflexivity.
Qed.

(** ** The slot files matter
    They are written by a background thread.  If a crash hits after outputs of a new epoch were
    saved (and possibly executed) but before the slot file names the new epoch, startup reads the
    wrong epoch's pack.  Both effects below are real behaviours of the code at this commit. *)

(** (1) leaders of the previous epoch are counted as leaders of the current one; *)
Theorem C34_stale_hint_miscounts_refuted :
  exists s s', reach s /\ ~ hint_fresh (n_disk s) /\ step s Crash = Some s' /\
    n_queue s = [] /\ n_queue s' = [] /\ n_disk s' = n_disk s /\ n_pack s' = n_pack s /\
    exists a, lead_count (n_counts s') a <> lead_count (n_counts s) a.
Proof.
  pose proof reach0 as R. unfold genesis in R.
  sav R o1. stp R reach_flush. sav R o2. stp R reach_exec. stp R reach_exec. stp R reach_close.
  sav R o3. stp R reach_exec.
  match type of R with reach ?s => exists s end.
  eexists. split; [exact R|]. split; [vm_compute; discriminate|].
  split; [vm_compute; reflexivity|]. repeat (split; [vm_compute; reflexivity|]).
  exists 7. vm_compute. discriminate.
Qed.
(** (2) a saved, unexecuted output is not replayed. *)
Theorem C34_stale_hint_loses_output_refuted :
  exists s s' o, reach s /\ ~ hint_fresh (n_disk s) /\ step s Crash = Some s' /\
    In o (d_log (n_disk s)) /\ In o (n_queue s) /\ n_queue s' = [] /\ n_disk s' = n_disk s.
Proof.
  pose proof reach0 as R. unfold genesis in R.
  sav R o1. stp R reach_flush. sav R o2. stp R reach_exec. stp R reach_exec. stp R reach_close.
  sav R o3.
  match type of R with reach ?s => exists s end.
  eexists _, o3. split; [exact R|]. split; [vm_compute; discriminate|].
  split; [vm_compute; reflexivity|]. vm_compute. auto 10.
Qed.
(** Within one epoch a stale slot is harmless: only its epoch is used.  So freshness holds as soon
    as the slot write for the first output of the epoch has happened. *)
Theorem C34_hint_fresh_within_epoch : forall s o s', reach s -> hint_fresh (n_disk s) ->
  next_output (d_log (n_disk s)) (n_pack s) o -> step s (Save o) = Some s' ->
  (exists p, In p (d_log (n_disk s)) /\ o_epoch p = n_pack s) -> hint_fresh (n_disk s').
Proof.
  intros s o s' R F N E (p & Hp & Ep). destruct (reach_inv s R) as (done & I).
  cbn [step] in E. unfold save in E. cbv zeta in E. destruct (_ || _) in E; [discriminate E|].
  injection E as <-. unfold hint_fresh in *. cbn [n_disk d_log d_hint]. rewrite rev_app_distr. cbn [rev app].
  destruct N as (_ & N2 & _). rewrite N2.
  destruct (rev (d_log (n_disk s))) as [|l t] eqn:Er.
  - rewrite <- (rev_involutive (d_log (n_disk s))), Er in Hp. destruct Hp.
  - rewrite F. apply last_log_epoch in Er.
    pose proof (i_sort _ _ I) as S. rewrite Er in S, Hp.
    apply sorted_app_elim in S as (_ & _ & S).
    assert (In l (d_log (n_disk s))) as Hl by (rewrite Er; apply in_or_app; right; left; reflexivity).
    destruct (i_pos _ _ I l Hl) as (_ & _ & _ & Le).
    apply in_app_or in Hp as [Hp|[->|[]]]; [|exact Ep].
    destruct (S p l Hp (or_introl eq_refl)) as [X|(X & _)]; lia.
Qed.
