(* C51, part 4: the invariant of a node through faults and restarts. *)
From Verif Require Import Util Types CommitteeModel GasModel GasProofs ExecModel ExecSpec ExecProofs ExecProofs2 ExecProofs3.
Local Open Scope N_scope.

Lemma fold_blocks_length bs : forall acc a, fold_blocks acc bs = Some a -> length a = length acc.
Proof.
  induction bs as [|b bs IH]; intros acc a H; cbn in H; [injection H as <-; reflexivity|].
  destruct (inc_block _ _ _ _) as [x|] eqn:E; [|discriminate H].
  rewrite (IH _ _ H). eapply inc_block_length. exact E.
Qed.

Section Inv.
Context {state tx : Type}.
Variable recover : N -> option tx.
Variable tx_gas : tx -> N.
Variable transact : benv -> state -> tx -> tres state.
Variable root_call : benv -> N -> state -> option state.
Variable hist_call : benv -> N -> state -> option state.
Variable close_call : benv -> N -> N -> list (N * N) -> list slot -> N -> N -> state -> option state.
Variable entry : state -> list slot * option committee.
Variable stroot : state -> N.
Variable txroot : list tx -> N.
Variable rcroot : list N -> N.
Variable hash : header -> N.
Variable lenient : N -> bool.
Variable G : list xout.
Hypothesis HG : committed G lenient.
Variable g : block state tx.
Notation blk := (block state tx).
Notation IsBlock := (is_block recover tx_gas transact root_call hist_call close_call stroot txroot rcroot hash).
Notation BatchBlocks := (batch_blocks recover tx_gas transact root_call hist_call close_call stroot txroot rcroot hash).
Notation OutputBlocks := (output_blocks recover tx_gas transact root_call hist_call close_call stroot txroot rcroot hash).
Notation Chain := (chain recover tx_gas transact root_call hist_call close_call entry stroot txroot rcroot hash G).
Notation Step := (xstep state tx recover tx_gas transact root_call hist_call close_call entry stroot txroot rcroot hash lenient G).
Notation Run := (xrun state tx recover tx_gas transact root_call hist_call close_call entry stroot txroot rcroot hash lenient G).
Notation Execute := (execute state tx recover tx_gas transact root_call hist_call close_call stroot txroot rcroot hash lenient).
Notation Restart := (restart state tx entry G).

(* every batch of an output names a worker its epoch has *)
Definition workers_fit : Prop := forall k l a o addr x, Chain g k l a -> nth_error G k = Some o ->
  In (addr, x) (batches_of o) -> (N.to_nat (xb_worker x) < length (xa_slots a))%nat.

Lemma batch_blocks_workers o i bs ds acc prev new a : BatchBlocks o i bs ds acc prev new a ->
  Forall (fun p => xb_worker (snd p) < 2 ^ 16) bs ->
  Forall (fun b : blk => exists p, In p bs /\ worker_id_of (h_diff (b_hdr b)) = xb_worker (snd p)) new.
Proof.
  intros H. induction H as [i acc prev|i addr x bs bd ds acc prev b l sl acc' HB HI H IH]; intros Hw; constructor.
  - exists (addr, x). split; [left; reflexivity|]. inversion Hw as [|? ? Hx _]; subst. cbn [snd] in *.
    destruct (is_block_fields _ _ _ _ _ _ _ _ _ _ _ _ _ _ _ _ _ _ _ _ _ _ _ HB) as (_ & _ & _ & _ & F5).
    rewrite F5, worker_id_of_low, N.add_comm, N.mod_add by discriminate. apply N.mod_small. exact Hx.
  - inversion Hw as [|? ? _ Hws]; subst. specialize (IH Hws). eapply Forall_impl; [|exact IH].
    intros c (p & Hp & E). exists p. split; [right; exact Hp|exact E].
Qed.

Lemma chain_in_range k l a : workers_fit -> Chain g k l a -> in_range entry l.
Proof.
  intros WF H. induction H as [|k prev l acc o new acc' H IH Ho Hb].
  - intros el s E. cbn in E. injection E as <- <-. constructor.
  - pose proof (nth_error_In _ _ Ho) as Hin. pose proof (workers_of _ _ HG o Hin) as Hw.
    destruct (output_shape _ _ _ _ _ _ _ _ _ _ _ _ _ _ _ Hb Hw) as [(-> & -> & Hc & _)|(Hn & B1 & B2 & B3 & B4)]; [exact IH|].
    destruct (xo_close o) eqn:Hc.
    + intros el s E. destruct (last_app_rev new prev l) as (t & Et). rewrite Et in E.
      destruct t as [|c t]; cbn [epoch_blocks] in E.
      * injection E as <- <-. constructor.
      * rewrite B2 in E. injection E as <- <-. constructor.
    + destruct (B4 eq_refl) as (C1 & C2 & C3 & C4).
      assert (Fr : Forall (fun b => closing state tx b = false) (rev new)).
      { apply Forall_forall. intros x Hx. rewrite Forall_forall in C1. apply C1. apply in_rev. exact Hx. }
      destruct (chain_acc _ _ _ _ _ _ _ _ _ _ _ _ _ HG _ _ _ _ H) as (el & s & I1 & I2 & I3 & I4).
      intros el' s' E. rewrite (epoch_blocks_open (rev new) prev l Fr), I1 in E. cbn [fst snd] in E. injection E as <- <-.
      apply Forall_app. split; [|exact (IH _ _ I1)].
      apply Forall_forall. intros b Hbn. apply in_rev in Hbn.
      unfold output_blocks in Hb. destruct (batches_of o) as [|p0 bs0] eqn:Eb.
      * destruct Hb as [_ Hb]. rewrite Hc in Hb. subst. destruct Hbn.
      * pose proof (batch_blocks_workers _ _ _ _ _ _ _ _ Hb Hw) as W. rewrite Forall_forall in W.
        destruct (W b Hbn) as ([addr x] & Hx & ->). cbn [snd]. rewrite <- (fold_blocks_length _ _ _ I2).
        eapply WF; [exact H|exact Ho|]. rewrite Eb. exact Hx.
Qed.

Definition tip (l : list blk) : header := match l with b :: _ => b_hdr b | [] => b_hdr g end.
Definition all_open (q : list xout) : Prop := Forall (fun o => xo_close o = false) q.
Definition queue_ok (k : nat) (a : xacc) (n : node state tx) : Prop :=
  n_next n = (k + length (n_queue n))%nat /\ (forall i o, nth_error (n_queue n) i = Some o -> nth_error G (k + i) = Some o) /\
  if n_wait n
  then (n_queue n = [] /\ exists o j, k = S j /\ nth_error G j = Some o /\ xo_close o = true) \/
       (n_acc n = a /\ exists q o, n_queue n = q ++ [o] /\ all_open q /\ xo_close o = true)
  else n_acc n = a /\ all_open (n_queue n).
(* an announcement is about an executed output *)
Definition sent_ok (db : list blk) (u : update) : Prop :=
  exists o, In o G /\ fst u = (xo_round o, xo_num o, xo_digest o) /\
    match snd u with
    | None => batches_of o = [] /\ xo_close o = false
    | Some h => exists b, In b db /\ b_hdr b = h /\ h_beacon h = xo_digest o
    end.
Definition inv (n : node state tx) : Prop :=
  (exists k a, Chain g k (n_db n) a /\
    (n_up n = true -> queue_ok k a n /\ exists prev, settled prev n)) /\
  Forall (sent_ok (n_db n)) (n_sent n) /\ (workers_fit -> n_head n = tip (n_db n)).

Lemma settled_tip prev n : settled prev n -> n_head n = tip (n_db n).
Proof. intros (_ & H & _ & _ & _ & t & E). rewrite E. exact H. Qed.
Lemma sent_mono db p u : sent_ok db u -> sent_ok (p ++ db) u.
Proof.
  intros (o & H1 & H2 & H3). exists o. split; [exact H1|]. split; [exact H2|]. destruct (snd u); [|exact H3].
  destruct H3 as (b & Hb & H3). exists b. split; [|exact H3]. apply in_or_app. right. exact Hb.
Qed.
Lemma sent_mono_all db p l : Forall (sent_ok db) l -> Forall (sent_ok (p ++ db)) l.
Proof. intros H. eapply Forall_impl; [|exact H]. intros u. apply sent_mono. Qed.

Lemma inv_restart n : (exists k a, Chain g k (n_db n) a) -> Forall (sent_ok (n_db n)) (n_sent n) ->
  inv (Restart n g) /\ (workers_fit -> n_up (Restart n g) = true).
Proof.
  intros (k & a & H) Hs.
  destruct (restart_point _ _ _ _ _ _ _ _ _ _ _ _ _ HG _ _ _ _ H) as (j & a' & J1 & J2 & J3 & J4 & J5).
  destruct (chain_ne _ _ _ _ _ _ _ _ _ _ _ _ _ _ _ _ H) as (b & t & Eb).
  split; [|intros WF; cbn [restart n_up]; rewrite (J5 (chain_in_range _ _ _ WF H)); reflexivity].
  split; [|split].
  - exists j, a'. cbn [restart n_db]. split; [exact J3|]. intros Hup. cbn [restart n_up] in Hup.
    destruct (rebuild state tx entry G (n_db n)) as [x|] eqn:R; [|discriminate Hup].
    pose proof (J4 x eq_refl) as ->. split.
    + unfold queue_ok. cbn [restart n_next n_queue n_wait n_acc length]. rewrite R.
      split; [rewrite J2; apply plus_n_O|]. split; [intros [|i] o Z; discriminate Z|]. split; [reflexivity|constructor].
    + exists b. unfold settled. cbn [restart n_mem n_head n_parent n_final n_sf n_db]. rewrite Eb. repeat split; eauto.
  - exact Hs.
  - intros _. cbn [restart n_head n_db]. unfold tip. rewrite Eb. reflexivity.
Qed.

Lemma queue_head k a n o q : queue_ok k a n -> n_queue n = o :: q -> nth_error G k = Some o /\ n_acc n = a.
Proof.
  intros (_ & Q2 & Q3) E. split.
  - specialize (Q2 0%nat o). rewrite E, Nat.add_0_r in Q2. apply Q2. reflexivity.
  - destruct (n_wait n); [|apply Q3]. destruct Q3 as [[Q3 _]|[Q3 _]]; [congruence|exact Q3].
Qed.

Lemma inv_exec f n o q : inv n -> n_up n = true -> n_queue n = o :: q ->
  inv (Execute f o (with_queue state tx q (n_next n) (n_wait n) (n_acc n) n)).
Proof.
  intros ((k & a & H & HU) & Hs & Hh) Hup Eq. destruct (HU Hup) as (Q & prev & S0).
  destruct (queue_head _ _ _ _ _ Q Eq) as (Ho & Ea). pose proof (nth_error_In _ _ Ho) as Hin.
  set (n1 := with_queue state tx q (n_next n) (n_wait n) (n_acc n) n).
  assert (S1 : settled prev n1) by exact S0.
  pose proof (chain_linked _ _ _ _ _ _ _ _ _ _ _ _ _ _ _ _ H) as Ln.
  destruct (execute_outcome recover tx_gas transact root_call hist_call close_call stroot txroot rcroot hash lenient
    f o prev n1 (cm_range _ _ HG o Hin) (workers_of _ _ HG o Hin) (cm_even _ _ HG o Hin) S1 Ln) as [OC (P1 & P2 & P3)].
  set (n' := Execute f o n1) in *.
  destruct S0 as (_ & Sh & _ & _ & _ & t & Edb).
  assert (Grow : forall new a', OutputBlocks o (count_leader (xo_leader o) (n_acc n1)) prev new a' -> n_db n' = rev new ++ n_db n1 ->
    Chain g (S k) (n_db n') (if xo_close o then acc_of entry (last new prev) else a')).
  { intros new a' HO E. rewrite E. change (n_db n1) with (n_db n). rewrite Edb. rewrite Edb in H.
    change (n_acc n1) with (n_acc n) in HO. rewrite Ea in HO. econstructor; eassumption. }
  destruct OC as [new a' U HO E St Ac Se|U E Se Me He|x U E Se Hx Hge|new a' U HO E Se He].
  - split; [|split].
    + exists (S k). eexists. split; [apply (Grow new a' HO E)|]. intros _. split; [|exists (last new prev); exact St].
      destruct Q as (Q1 & Q2 & Q3). unfold queue_ok. rewrite P1, P2, P3. cbn [n1 with_queue n_next n_queue n_wait].
      rewrite Q1, Eq. cbn [length]. split; [clear; lia|]. split.
      * intros i o' Hi. specialize (Q2 (S i) o'). rewrite Eq in Q2. cbn [nth_error] in Q2.
        rewrite <- Nat.add_succ_comm in Q2. apply Q2. exact Hi.
      * destruct (n_wait n).
        -- destruct Q3 as [[Q3 _]|(_ & q' & o' & E1 & E2 & E3)]; [congruence|]. rewrite Eq in E1.
           destruct q' as [|o1 q'].
           ++ injection E1 as <- ->. left. split; [reflexivity|]. exists o, k. auto.
           ++ injection E1 as <- ->. pose proof (Forall_inv E2) as Ec. pose proof (Forall_inv_tail E2) as E2'. cbn beta in Ec. rewrite Ec. right. split; [exact Ac|]. exists q', o'. auto.
        -- destruct Q3 as (_ & Q3). rewrite Eq in Q3. pose proof (Forall_inv Q3) as Ec. pose proof (Forall_inv_tail Q3) as Q3'. cbn beta in Ec. rewrite Ec. auto.
    + rewrite Se, E. apply Forall_app. split; [apply sent_mono_all; exact Hs|]. constructor; [|constructor].
      exists o. split; [exact Hin|]. split; [reflexivity|]. cbn [announced snd].
      destruct (output_shape _ _ _ _ _ _ _ _ _ _ _ _ _ _ _ HO (workers_of _ _ HG o Hin)) as [(-> & _ & Hc & Hb)|(Hn & B1 & _)].
      * auto.
      * destruct new as [|b new']; [congruence|]. set (new := b :: new') in *. exists (last new prev).
        split; [|auto]. apply in_or_app. left. apply -> in_rev.
        destruct (exists_last Hn) as (p & z & Ez). rewrite Ez, last_last. apply in_or_app. right. left. reflexivity.
    + intros _. eapply settled_tip. exact St.
  - split; [|split].
    + exists k, a. rewrite E. split; [exact H|]. rewrite U. discriminate.
    + rewrite Se, E. exact Hs.
    + intros WF. rewrite He, E. exact (Hh WF).
  - split; [|split].
    + exists k, a. rewrite E. split; [exact H|]. rewrite U. discriminate.
    + rewrite Se, E. exact Hs.
    + intros WF. exfalso. apply in_map_iff in Hx as ([addr y] & <- & Hy). cbn [snd] in Hge.
      pose proof (WF _ _ _ _ _ _ H Ho Hy) as Z. change (n_acc n1) with (n_acc n) in Hge. rewrite Ea in Hge. clear -Z Hge. lia.
  - split; [|split].
    + exists (S k). eexists. split; [apply (Grow new a' HO E)|]. rewrite U. discriminate.
    + rewrite Se, E. apply sent_mono_all. exact Hs.
    + intros _. rewrite He, E. change (n_db n1) with (n_db n). rewrite Edb.
      destruct (last_app_rev new prev t) as (t' & ->). reflexivity.
Qed.

Lemma inv_step n e : inv n -> inv (Step g n e).
Proof.
  intros I. destruct e as [|f| |]; cbn [xstep].
  - destruct (n_up n && negb (n_wait n) && (length (n_queue n) <? 8)%nat) eqn:C; [|exact I].
    destruct (nth_error G (n_next n)) as [o|] eqn:Eo; [|exact I].
    apply andb_prop in C as [C _]. apply andb_prop in C as [Hup Hw]. apply negb_true_iff in Hw.
    destruct I as ((k & a & H & HU) & Hs & Hh). destruct (HU Hup) as ((Q1 & Q2 & Q3) & prev & S0).
    split; [|split; [exact Hs|exact Hh]].
    exists k, a. split; [exact H|]. intros _. split; [|exists prev; exact S0].
    rewrite Hw in Q3. destruct Q3 as (Q3 & Q4). unfold queue_ok. cbn [with_queue n_next n_queue n_wait n_acc].
    split; [rewrite app_length, Q1; cbn [length]; clear; lia|]. split.
    + intros i o' Hi. destruct (Nat.lt_ge_cases i (length (n_queue n))) as [Hl|Hl].
      * rewrite nth_error_app1 in Hi by exact Hl. apply Q2. exact Hi.
      * rewrite nth_error_app2 in Hi by exact Hl.
        destruct (i - length (n_queue n))%nat as [|d] eqn:Ed; [|destruct d; discriminate Hi].
        injection Hi as <-. assert (i = length (n_queue n)) by (clear -Hl Ed; lia). subst i. rewrite <- Q1. exact Eo.
    + destruct (xo_close o) eqn:Ec.
      * right. split; [exact Q3|]. exists (n_queue n), o. auto.
      * split; [exact Q3|]. apply Forall_app. split; [exact Q4|]. constructor; [exact Ec|constructor].
  - destruct (n_up n) eqn:Hup; [|exact I]. destruct (n_queue n) as [|o q] eqn:Eq; [exact I|]. apply inv_exec; assumption.
  - destruct (n_queue n) as [|o q] eqn:Eq; [|exact I]. destruct (n_db n) as [|b t] eqn:Edb; [exact I|].
    destruct (n_up n && n_wait n) eqn:C; [|exact I]. apply andb_prop in C as [Hup Hw].
    destruct I as ((k & a & H & HU) & Hs & Hh). destruct (HU Hup) as ((Q1 & Q2 & Q3) & prev & S0).
    split; [|split; [exact Hs|exact Hh]].
    exists k, a. split; [exact H|]. intros _. split; [|exists prev; exact S0].
    rewrite Hw in Q3. unfold queue_ok. cbn [with_queue n_next n_queue n_wait n_acc].
    rewrite Q1, Eq. split; [reflexivity|]. split; [intros [|i] o Z; discriminate Z|]. split; [|constructor].
    destruct Q3 as [(_ & o & j & -> & Ho & Hc)|(_ & q & o & E & _)]; [|rewrite Eq in E; destruct q; discriminate E].
    inversion H as [|k0 prev0 l0 acc0 o0 new acc' H0 Ho0 Hb Ek El Ea]; subst.
    rewrite Ho in Ho0. injection Ho0 as <-. rewrite Hc.
    destruct (last_app_rev new prev0 l0) as (t' & Et). rewrite Et in El. rewrite <- El in Edb. injection Edb as <- <-. reflexivity.
  - destruct I as ((k & a & H & _) & Hs & _). apply inv_restart; eauto.
Qed.
Lemma inv_start : inv (start state tx entry G g).
Proof.
  unfold start. apply inv_restart; cbn [n_db n_sent]; [|constructor].
  exists 0%nat, (acc_of entry g). constructor.
Qed.
Lemma inv_run evs : inv (Run g evs).
Proof.
  unfold xrun. assert (X : forall l n, inv n -> inv (fold_left (Step g) l n)).
  { induction l as [|e l IH]; intros n I; [exact I|]. cbn [fold_left]. apply IH. apply inv_step. exact I. }
  apply X. apply inv_start.
Qed.

(* ---- the stored chain only grows ---- *)
Lemma step_grows n e : inv n -> exists p, n_db (Step g n e) = p ++ n_db n.
Proof.
  intros I. destruct e as [|f| |]; cbn [xstep].
  - destruct (_ && _ && _); [|exists []; reflexivity]. destruct (nth_error _ _); exists []; reflexivity.
  - destruct (n_up n) eqn:Hup; [|exists []; reflexivity]. destruct (n_queue n) as [|o q] eqn:Eq; [exists []; reflexivity|].
    destruct I as ((k & a & H & HU) & Hs & Hh). destruct (HU Hup) as (Q & prev & S0).
    destruct (queue_head _ _ _ _ _ Q Eq) as (Ho & Ea). pose proof (nth_error_In _ _ Ho) as Hin.
    pose proof (chain_linked _ _ _ _ _ _ _ _ _ _ _ _ _ _ _ _ H) as Ln.
    destruct (execute_outcome recover tx_gas transact root_call hist_call close_call stroot txroot rcroot hash lenient
      f o prev (with_queue state tx q (n_next n) (n_wait n) (n_acc n) n)
      (cm_range _ _ HG o Hin) (workers_of _ _ HG o Hin) (cm_even _ _ HG o Hin) S0 Ln) as [OC _].
    destruct OC as [new a' U HO E St Ac Se|U E Se Me He|x U E Se Hx Hge|new a' U HO E Se He]; rewrite E; eauto; exists []; reflexivity.
  - destruct (n_queue n); [|exists []; reflexivity]. destruct (n_db n) eqn:Ed; [exists []; rewrite Ed; reflexivity|].
    destruct (_ && _); exists []; rewrite <- ?Ed; reflexivity.
  - exists []. reflexivity.
Qed.
Lemma run_grows evs : forall n, inv n -> exists p, n_db (fold_left (Step g) evs n) = p ++ n_db n.
Proof.
  induction evs as [|e evs IH]; intros n I; [exists []; reflexivity|]. cbn [fold_left].
  destruct (IH _ (inv_step n e I)) as (p & ->). destruct (step_grows n e I) as (q & ->).
  exists (p ++ q). apply app_assoc.
Qed.

(* ---- catching up ---- *)
Definition all_meaningful : Prop := forall k prev l a o, Chain g k (prev :: l) a -> nth_error G k = Some o ->
  length (batches_of o) = length (xo_digests o) /\
  exists new a', OutputBlocks o (count_leader (xo_leader o) a) prev new a'.
Definition no_fault : faults := {| f_build := fun _ => false; f_persist := []; f_send := true |}.
Definition round : list xev := [EvRecv; EvExec no_fault; EvEpoch].
Definition idle (k : nat) (n : node state tx) : Prop :=
  n_up n = true /\ n_queue n = [] /\ n_wait n = false /\ inv n /\ n_next n = k /\
  exists a prev, Chain g k (n_db n) a /\ n_acc n = a /\ settled prev n.

Lemma round_advances k n : all_meaningful -> idle k n -> (k < length G)%nat -> idle (S k) (fold_left (Step g) round n).
Proof.
  intros AM (Hup & Eq & Hw & I & En & a & prev & H & Ea & S0) Hk.
  destruct (nth_error G k) as [o|] eqn:Ho; [|apply nth_error_None in Ho; exfalso; clear -Ho Hk; lia].
  pose proof (nth_error_In _ _ Ho) as Hin.
  pose proof (inv_step n EvRecv I) as I1. unfold round. cbn [fold_left].
  set (n1 := Step g n EvRecv) in *.
  assert (E1 : n1 = with_queue state tx [o] (S k) (xo_close o) (n_acc n) n).
  { unfold n1. cbn [xstep]. rewrite Hup, Hw, Eq. cbn [negb andb length]. rewrite En, Ho. reflexivity. }
  clearbody n1. pose proof (inv_step n1 (EvExec no_fault) I1) as I2. set (n2 := Step g n1 (EvExec no_fault)) in *.
  set (n1' := with_queue state tx [] (S k) (xo_close o) (n_acc n) n).
  assert (E2 : n2 = Execute no_fault o n1').
  { unfold n2. rewrite E1. cbn [xstep with_queue n_up n_queue]. rewrite Hup. reflexivity. }
  clearbody n2. pose proof (inv_step n2 EvEpoch I2) as I3. set (n3 := Step g n2 EvEpoch) in *.
  assert (S1 : settled prev n1') by exact S0. pose proof S0 as (_ & _ & _ & _ & _ & t & Edb).
  pose proof H as H'. rewrite Edb in H'. destruct (AM _ _ _ _ _ H' Ho) as (Even & new0 & a0 & HO0).
  pose proof (chain_linked _ _ _ _ _ _ _ _ _ _ _ _ _ _ _ _ H) as Ln.
  pose proof (execute_up recover tx_gas transact root_call hist_call close_call stroot txroot rcroot hash lenient
    no_fault o prev n1' new0 a0 (cm_range _ _ HG o Hin) (workers_of _ _ HG o Hin) Even S1) as Up.
  change (n_acc n1') with (n_acc n) in Up. rewrite Ea in Up.
  assert (Cn : clean no_fault) by (split; [reflexivity|split; reflexivity]). specialize (Up HO0 Cn).
  destruct (execute_outcome recover tx_gas transact root_call hist_call close_call stroot txroot rcroot hash lenient
    no_fault o prev n1' (cm_range _ _ HG o Hin) (workers_of _ _ HG o Hin) (cm_even _ _ HG o Hin) S1 Ln) as [OC (P1 & P2 & P3)].
  rewrite <- E2 in *. change (n_queue n1') with (@nil xout) in P1. change (n_next n1') with (S k) in P2. change (n_wait n1') with (xo_close o) in P3.
  destruct OC as [new a' U HO E St Ac Se|U E Se Me He|x U E Se Hx Hge|new a' U HO E Se He]; try congruence.
  change (n_acc n1') with (n_acc n) in HO. rewrite Ea in HO. change (n_db n1') with (n_db n) in E. rewrite Edb in E.
  assert (H2 : Chain g (S k) (n_db n2) (if xo_close o then acc_of entry (last new prev) else a')).
  { rewrite E. econstructor; eassumption. }
  destruct (last_app_rev new prev t) as (t' & Et). rewrite Et in E.
  assert (E3 : n3 = if xo_close o then with_queue state tx [] (n_next n2) false (acc_of entry (last new prev)) n2 else n2).
  { unfold n3. cbn [xstep]. rewrite P1, E, U, P3. destruct (xo_close o); reflexivity. }
  destruct (xo_close o) eqn:Hc; rewrite E3 in *; clear E3 n3.
  - refine (conj U (conj eq_refl (conj eq_refl (conj I3 (conj P2 _))))). cbn [with_queue n_db n_acc n_queue]. eexists _, (last new prev). split; [exact H2|]. split; [reflexivity|exact St].
  - refine (conj U (conj P1 (conj P3 (conj I3 (conj P2 _))))). eexists _, (last new prev). split; [exact H2|]. split; [exact Ac|exact St].
Qed.
Lemma round_stays n : idle (length G) n -> fold_left (Step g) round n = n.
Proof.
  intros (Hup & Eq & Hw & I & En & _). unfold round. cbn [fold_left].
  assert (E1 : Step g n EvRecv = n).
  { cbn [xstep]. rewrite En, (proj2 (nth_error_None G (length G)) (le_n _)). destruct (_ && _ && _); reflexivity. }
  rewrite E1. assert (E2 : Step g n (EvExec no_fault) = n) by (cbn [xstep]; rewrite Hup, Eq; reflexivity).
  rewrite E2. cbn [xstep]. rewrite Eq, Hw, andb_false_r. destruct (n_db n); reflexivity.
Qed.
Lemma rounds_reach m : forall k n, all_meaningful -> idle k n -> (k <= length G)%nat -> (length G <= k + m)%nat ->
  idle (length G) (fold_left (Step g) (concat (repeat round m)) n).
Proof.
  induction m as [|m IH]; intros k n AM I L1 L2.
  - cbn. assert (k = length G) by (clear -L1 L2; lia). subst k. exact I.
  - cbn [repeat concat]. rewrite fold_left_app. destruct (Nat.eq_dec k (length G)) as [->|Hn].
    + rewrite (round_stays n I). apply (IH (length G)); auto. clear; lia.
    + apply (IH (S k)); auto; try (clear -L1 L2 Hn; lia). apply round_advances; auto. clear -L1 Hn; lia.
Qed.
Lemma catches_up evs : workers_fit -> all_meaningful ->
  idle (length G) (Run g (evs ++ EvCrash :: concat (repeat round (length G)))).
Proof.
  intros WF AM. unfold xrun. rewrite fold_left_app. cbn [fold_left].
  pose proof (inv_run evs) as I. unfold xrun in I.
  set (n := fold_left (Step g) evs (start state tx entry G g)) in *.
  pose proof (inv_step n EvCrash I) as I1. change (Step g n EvCrash) with (Restart n g) in *.
  destruct I as ((k & a & H & _) & Hs & _).
  destruct (restart_point _ _ _ _ _ _ _ _ _ _ _ _ _ HG _ _ _ _ H) as (j & a' & J1 & J2 & J3 & J4 & J5).
  pose proof (J5 (chain_in_range _ _ _ WF H)) as R.
  pose proof (chain_bound _ _ _ _ _ _ _ _ _ _ _ _ _ _ _ _ J3) as B.
  apply (rounds_reach _ j); auto; [|clear; lia].
  destruct (chain_ne _ _ _ _ _ _ _ _ _ _ _ _ _ _ _ _ H) as (b & t & Eb).
  refine (conj _ (conj eq_refl (conj eq_refl (conj I1 (conj J2 _))))).
  - cbn [restart n_up]. rewrite R. reflexivity.
  - exists a', b. cbn [restart n_db n_acc]. rewrite R. split; [exact J3|]. split; [reflexivity|].
    unfold settled. cbn [restart n_mem n_head n_parent n_final n_sf n_db]. rewrite Eb. repeat split; eauto.
Qed.
End Inv.
