(* C51, part 1: blocks built by the code are the specified ones; the specified chain is unique. *)
From Verif Require Import Util Types CommitteeModel GasModel GasProofs ExecModel ExecSpec.
Local Open Scope N_scope.

Section P.
Context {state tx : Type}.
Variable recover : N -> option tx.
Variable tx_gas : tx -> N.
Variable transact : benv -> state -> tx -> tres state.
Variable root_call : benv -> N -> state -> option state.
Variable hist_call : benv -> N -> state -> option state.
Variable close_call : benv -> N -> N -> list (N * N) -> list slot -> N -> N -> state -> option state.
Variable entry : state -> list slot * option committee.
Variable stroot : state -> N.
Variable txroot : list tx -> N.
Variable rcroot : list N -> N.
Variable hash : header -> N.
Variable G : list xout.
Notation blk := (block state tx).
Notation Executed := (executed recover tx_gas transact).
Notation IsBlock := (is_block recover tx_gas transact root_call hist_call close_call stroot txroot rcroot hash).
Notation BatchBlocks := (batch_blocks recover tx_gas transact root_call hist_call close_call stroot txroot rcroot hash).
Notation OutputBlocks := (output_blocks recover tx_gas transact root_call hist_call close_call stroot txroot rcroot hash).
Notation Chain := (chain recover tx_gas transact root_call hist_call close_call entry stroot txroot rcroot hash G).
Notation RunBlock := (run_block state tx recover tx_gas transact root_call hist_call close_call stroot txroot rcroot).
Notation ExecTxs := (exec_txs state tx recover tx_gas transact).

(* ---- transactions ---- *)
Lemma exec_txs_sound e raw : forall used st done rc used' st' ts' rc',
  ExecTxs e raw used st done rc = Some (used', st', ts', rc') ->
  exists ts rs, ts' = rev done ++ ts /\ rc' = rev rc ++ rs /\ Executed e raw used st used' st' ts rs.
Proof.
  induction raw as [|b r IH]; intros used st done rc used' st' ts' rc' H; cbn [exec_txs] in H.
  - injection H as <- <- <- <-. exists [], []. rewrite !app_nil_r. repeat split. constructor.
  - destruct (recover b) as [t|] eqn:R.
    + destruct (e_limit e - used <? tx_gas t) eqn:Lm; [discriminate H|]. apply N.ltb_ge in Lm.
      destruct (transact e st t) as [st1 g x| |] eqn:T; [| |discriminate H].
      * apply IH in H as (ts & rs & -> & -> & H). exists (t :: ts), (x :: rs).
        cbn [rev]. rewrite <- !app_assoc. repeat split. eapply ex_included; eassumption.
      * apply IH in H as (ts & rs & -> & -> & H). exists ts, rs. repeat split. eapply ex_invalid; eassumption.
    + apply IH in H as (ts & rs & -> & -> & H). exists ts, rs. repeat split. apply ex_undecodable; assumption.
Qed.
Lemma exec_txs_complete e raw : forall used st used' st' ts rs, Executed e raw used st used' st' ts rs ->
  forall done rc, ExecTxs e raw used st done rc = Some (used', st', rev done ++ ts, rev rc ++ rs).
Proof.
  intros used st used' st' ts rs H. induction H as
    [used st|b r used st used' st' ts rc R H IH|b t r used st used' st' ts rc R L T H IH|
     b t r used st g x st1 used' st' ts rc R L T H IH]; intros done rc0; cbn [exec_txs].
  - rewrite !app_nil_r. reflexivity.
  - rewrite R. apply IH.
  - rewrite R, (proj2 (N.ltb_ge _ _) L), T. apply IH.
  - rewrite R, (proj2 (N.ltb_ge _ _) L), T, IH. cbn [rev]. rewrite <- !app_assoc. reflexivity.
Qed.
Lemma executed_fun e raw used st u1 s1 t1 r1 u2 s2 t2 r2 :
  Executed e raw used st u1 s1 t1 r1 -> Executed e raw used st u2 s2 t2 r2 ->
  u1 = u2 /\ s1 = s2 /\ t1 = t2 /\ r1 = r2.
Proof.
  intros A B. apply exec_txs_complete with (done := []) (rc := []) in A, B. cbn [rev app] in A, B.
  rewrite A in B. injection B as -> -> -> ->. auto.
Qed.

(* ---- one block ---- *)
Definition small (o : xout) : Prop :=
  xo_epoch o < 2 ^ 32 /\ 0 < xo_round o < 2 ^ 32 /\ N.of_nat (length (xo_digests o)) < 2 ^ 48.

Definition closes_at (o : xout) (i : nat) : bool :=
  match close_epoch_for_last_batch o i with Some true => true | _ => false end.

Lemma first_batch_match {A} (a b : A) i w : N.of_nat i < 2 ^ 48 -> w < 2 ^ 16 ->
  (if first_batch (difficulty (N.of_nat i) w) then a else b) = match i with O => a | S _ => b end.
Proof.
  intros Hi Hw. destruct i as [|i].
  - change (N.of_nat 0) with 0. rewrite (proj2 (first_batch_iff 0 w ltac:(lia) Hw)); reflexivity.
  - destruct (first_batch _) eqn:F; [|reflexivity].
    apply first_batch_iff in F; [|assumption..]. lia.
Qed.

Lemma run_is_block o i addr bd fee limit mix worker raw acc (prev b : blk) :
  small o -> N.of_nat i < 2 ^ 48 -> worker < 2 ^ 16 ->
  let y := mk_payload (b_hdr prev) addr i bd o fee limit mix worker in
  RunBlock (next_env (b_hdr prev) y) (ctx_next hash (b_hdr prev) y) acc raw (b_state prev) = Some b <->
  IsBlock o i (closes_at o i) addr bd fee limit mix worker raw acc prev b.
Proof.
  intros (He & Hr & _) Hi Hw y. unfold run_block, is_block.
  assert (Ed : c_diff (ctx_next hash (b_hdr prev) y) = difficulty (N.of_nat i) worker) by reflexivity.
  rewrite Ed. rewrite (first_batch_match _ _ _ _ Hi Hw), (worker_roundtrip _ _ Hw).
  assert (Ec : c_close (ctx_next hash (b_hdr prev) y) = if closes_at o i then Some (xo_seed o) else None).
  { unfold ctx_next, y, mk_payload, closes_at. cbn [c_close y_close].
    destruct (close_epoch_for_last_batch o i) as [[|]|]; reflexivity. }
  assert (En : c_nonce (ctx_next hash (b_hdr prev) y) = xo_epoch o * 2 ^ 32 + xo_round o).
  { unfold ctx_next, y, mk_payload. cbn [c_nonce y_nonce]. apply nonce_val; lia. }
  rewrite Ec, En. rewrite (difficulty_val _ _ Hi Hw).
  set (e := next_env (b_hdr prev) y).
  change (c_beacon (ctx_next hash (b_hdr prev) y)) with (xo_digest o).
  change (c_parent (ctx_next hash (b_hdr prev) y)) with (hash (b_hdr prev)).
  change (c_ommers (ctx_next hash (b_hdr prev) y)) with bd.
  change {| e_number := h_number (b_hdr prev) + 1; e_benef := addr; e_time := xo_time o; e_mix := mix;
            e_limit := limit; e_fee := fee |} with e.
  split.
  - intros H.
    destruct (match i with O => root_call e (xo_digest o) (b_state prev) | S _ => Some (b_state prev) end) as [st1|] eqn:R1;
      [|discriminate H].
    destruct (hist_call e (hash (b_hdr prev)) st1) as [st2|] eqn:R2; [|discriminate H].
    destruct (ExecTxs e raw 0 st2 [] []) as [[[[used st3] done] rc]|] eqn:R3; [|discriminate H].
    apply exec_txs_sound in R3 as (ts & rs & -> & -> & R3). cbn [rev app] in H.
    exists st1, st2, st3, rs, used.
    destruct (closes_at o i) eqn:Cl.
    + destruct (close_call _ _ _ _ _ _ _ _) as [st4|] eqn:R4; [|discriminate H]. injection H as <-.
      cbn [b_hdr b_txs b_state]. repeat split; auto.
      destruct i; [exact R1|injection R1 as <-; reflexivity].
    + injection H as <-. cbn [b_hdr b_txs b_state]. repeat split; auto.
      destruct i; [exact R1|injection R1 as <-; reflexivity].
  - intros (st1 & st2 & st3 & rc & used & R1 & R2 & R3 & R4 & Eh).
    assert (R1' : match i with O => root_call e (xo_digest o) (b_state prev) | S _ => Some (b_state prev) end = Some st1).
    { destruct i; [exact R1|rewrite R1; reflexivity]. }
    rewrite R1', R2. rewrite (exec_txs_complete _ _ _ _ _ _ _ _ R3). cbn [rev app].
    destruct b as [bh bt bs]. cbn [b_hdr b_txs b_state] in *.
    destruct (closes_at o i).
    + rewrite R4. rewrite Eh. reflexivity.
    + subst bs. rewrite Eh. reflexivity.
Qed.
Lemma is_block_fun o i cl addr bd fee limit mix worker raw acc (prev b b' : blk) :
  IsBlock o i cl addr bd fee limit mix worker raw acc prev b ->
  IsBlock o i cl addr bd fee limit mix worker raw acc prev b' -> b = b'.
Proof.
  intros (s1 & s2 & s3 & rc & used & A1 & A2 & A3 & A4 & A5) (s1' & s2' & s3' & rc' & used' & B1 & B2 & B3 & B4 & B5).
  assert (s1 = s1') by (destruct i; congruence). subst s1'.
  assert (s2 = s2') by congruence. subst s2'.
  destruct (executed_fun _ _ _ _ _ _ _ _ _ _ _ _ A3 B3) as (Eu & E3 & Et & Er). subst used' s3' rc'.
  destruct b as [h1 t1 x1], b' as [h2 t2 x2]. cbn [b_hdr b_txs b_state] in *. subst t2.
  assert (x1 = x2) by (destruct cl; congruence). subst x2. congruence.
Qed.
Lemma is_block_number o i cl addr bd fee limit mix worker raw acc (prev b : blk) :
  IsBlock o i cl addr bd fee limit mix worker raw acc prev b -> h_number (b_hdr b) = h_number (b_hdr prev) + 1.
Proof. intros (? & ? & ? & ? & ? & _ & _ & _ & _ & ->). reflexivity. Qed.

(* ---- one output ---- *)
Lemma batch_blocks_fun o i bs ds acc prev l1 a1 : BatchBlocks o i bs ds acc prev l1 a1 ->
  forall l2 a2, BatchBlocks o i bs ds acc prev l2 a2 -> l1 = l2 /\ a1 = a2.
Proof.
  intros H. induction H as [i acc prev|i addr x bs bd ds acc prev b l sl acc' HB HI H IH]; intros l2 a2 H2; inversion H2; subst.
  - auto.
  - match goal with X : is_block _ _ _ _ _ _ _ _ _ _ _ _ _ _ _ _ _ _ _ _ _ _ _ |- _ =>
      pose proof (is_block_fun _ _ _ _ _ _ _ _ _ _ _ _ _ _ HB X) end. subst.
    assert (sl = sl0) by congruence. subst.
    match goal with X : batch_blocks _ _ _ _ _ _ _ _ _ _ _ _ _ _ _ _ _ _ |- _ => apply IH in X as [-> ->] end. auto.
Qed.
Lemma output_blocks_fun o acc prev l1 a1 l2 a2 :
  OutputBlocks o acc prev l1 a1 -> OutputBlocks o acc prev l2 a2 -> l1 = l2 /\ a1 = a2.
Proof.
  unfold output_blocks. destruct (batches_of o).
  - intros [-> A] [-> B]. split; [|reflexivity]. destruct (xo_close o); [|congruence].
    destruct A as (be & b & Ea & -> & A), B as (be' & b' & Eb & -> & B).
    rewrite Ea in Eb. injection Eb as <-. f_equal. eapply is_block_fun; eassumption.
  - intros A B. eapply batch_blocks_fun; eassumption.
Qed.

(* ---- the whole chain ---- *)
Lemma chain_ne g k l acc : Chain g k l acc -> exists b t, l = b :: t.
Proof.
  intros H. inversion H; subst; [eauto|]. destruct (rev new); cbn [app]; eauto.
Qed.
Lemma chain_fun g k l1 a1 : Chain g k l1 a1 -> forall l2 a2, Chain g k l2 a2 -> l1 = l2 /\ a1 = a2.
Proof.
  intros H. induction H as [|k prev l acc o new acc' H IH Ho Hb]; intros l2 a2 H2; inversion H2; subst; [auto|].
  match goal with X : chain _ _ _ _ _ _ _ _ _ _ _ _ _ k _ _ |- _ => apply IH in X as [E <-] end.
  injection E as <- <-.
  assert (o = o0) by congruence. subst.
  match goal with X : output_blocks _ _ _ _ _ _ _ _ _ _ _ _ _ _ _ |- _ =>
    destruct (output_blocks_fun _ _ _ _ _ _ _ Hb X) as [-> ->] end. auto.
Qed.
Lemma chain_grows g k l a : Chain g k l a -> forall j, (j <= k)%nat ->
  exists p l1 a1, Chain g j l1 a1 /\ l = p ++ l1.
Proof.
  intros H. induction H as [|k prev l acc o new acc' H IH Ho Hb]; intros j Hj.
  - assert (j = 0)%nat by lia. subst. exists [], [g], (acc_of entry g). split; [constructor|reflexivity].
  - destruct (Nat.eq_dec j (S k)) as [->|].
    + eexists [], _, _. split; [econstructor; eassumption|reflexivity].
    + destruct (IH j) as (p & l1 & a1 & H1 & E); [lia|]. exists (rev new ++ p), l1, a1. split; [assumption|].
      rewrite E, app_assoc. reflexivity.
Qed.
Lemma chain_bound g k l a : Chain g k l a -> (k <= length G)%nat.
Proof.
  intros H. destruct H as [|k prev l acc o new acc' H Ho Hb]; [apply Nat.le_0_l|].
  apply nth_error_Some. congruence.
Qed.

(* numbers go down by one along the stored chain *)
Fixpoint linked (l : list blk) : Prop :=
  match l with
  | [] => True
  | b :: t => match t with [] => True | p :: _ => h_number (b_hdr b) = h_number (b_hdr p) + 1 /\ h_parent (b_hdr b) = hash (b_hdr p) end /\ linked t
  end.
Lemma linked_lower l : forall b, linked (b :: l) -> forall c, In c l -> h_number (b_hdr c) < h_number (b_hdr b).
Proof.
  induction l as [|p l IH]; intros b H c Hc; [destruct Hc|].
  destruct H as [[E _] H]. destruct Hc as [<-|Hc]; [rewrite E; apply N.lt_add_pos_r; reflexivity|].
  pose proof (IH p H c Hc) as Hl. rewrite E. etransitivity; [exact Hl|]. apply N.lt_add_pos_r; reflexivity.
Qed.
Lemma batch_blocks_linked o i bs ds acc prev new a : BatchBlocks o i bs ds acc prev new a ->
  forall l, linked (prev :: l) -> linked (rev new ++ prev :: l).
Proof.
  intros H. induction H as [|i addr x bs bd ds acc prev b l sl acc' HB HI H IH]; intros l0 L; [exact L|].
  cbn [rev]. rewrite <- app_assoc. cbn [app]. apply IH. split; [|exact L].
  split; [eapply is_block_number; eassumption|].
  destruct HB as (? & ? & ? & ? & ? & _ & _ & _ & _ & ->). reflexivity.
Qed.
Lemma output_linked o acc prev new a l : OutputBlocks o acc prev new a -> linked (prev :: l) -> linked (rev new ++ prev :: l).
Proof.
  unfold output_blocks. destruct (batches_of o).
  - intros [_ H] L. destruct (xo_close o); [|subst; exact L].
    destruct H as (be & b & _ & -> & HB). cbn [rev app]. split; [|exact L].
    split; [eapply is_block_number; eassumption|].
    destruct HB as (? & ? & ? & ? & ? & _ & _ & _ & _ & ->). reflexivity.
  - intros H L. eapply batch_blocks_linked; eassumption.
Qed.
Lemma chain_linked g k l a : Chain g k l a -> linked l.
Proof.
  intros H. induction H as [|k prev l acc o new acc' H IH Ho Hb]; [cbn; auto|]. eapply output_linked; eassumption.
Qed.
End P.
