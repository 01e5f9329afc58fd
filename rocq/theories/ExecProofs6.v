(* C51, part 6: what the closing block of an epoch pays. *)
From Verif Require Import Util Types CommitteeModel GasModel GasSpec GasProofs ExecModel ExecSpec ExecProofs ExecProofs2 ExecProofs3 ExecProofs4.
Local Open Scope N_scope.

Lemma count_if_rev p l : count_if p (rev l) = count_if p l.
Proof.
  unfold count_if. f_equal. induction l as [|x l IH]; [reflexivity|]. cbn [rev filter]. rewrite filter_app, app_length, IH. cbn.
  destruct (p x); cbn; lia.
Qed.
Lemma count_if_map p (l : list xout) : count_if p (map xo_leader l) = N.of_nat (length (filter (fun o => p (xo_leader o)) l)).
Proof.
  unfold count_if. f_equal. induction l as [|x l IH]; [reflexivity|]. cbn. destruct (p (xo_leader x)); cbn; rewrite IH; reflexivity.
Qed.
Lemma rewards_exact sl ls cm addr amount :
  In (addr, amount) (rewards {| xa_slots := sl; xa_leaders := ls; xa_cm := Some cm |}) <->
  0 < count_if (hits cm addr) ls /\ amount = count_if (hits cm addr) ls mod 2 ^ 32.
Proof.
  unfold rewards. cbn [xa_cm xa_leaders].
  assert (R : forall l s, acc_run s (map OpLeader l) =
    Some {| ac_slots := ac_slots s; ac_counts := fold_left inc_count l (ac_counts s); ac_committee := ac_committee s |}).
  { induction l as [|x l IH]; intros s; cbn; [destruct s; reflexivity|]. rewrite IH. reflexivity. }
  assert (L : forall l, leaders_since_clear (rev (OpCommittee cm :: map OpLeader l)) = rev l).
  { intros l. cbn [rev]. rewrite <- map_rev. induction (rev l) as [|x r IH]; [reflexivity|]. cbn. f_equal. exact IH. }
  assert (C : committee_now (rev (OpCommittee cm :: map OpLeader ls)) = Some cm).
  { cbn [rev]. rewrite <- map_rev. induction (rev ls) as [|x r IH]; [reflexivity|]. cbn. exact IH. }
  pose proof (withdrawals_correct 0 (OpCommittee cm :: map OpLeader ls)) as W.
  cbn [acc_run acc_step acc_new ac_slots ac_counts ac_committee] in W. rewrite R in W. cbn [ac_slots ac_counts ac_committee] in W.
  specialize (W _ cm (fold_left inc_count ls []) eq_refl C (Permutation_refl _)). cbn [ac_committee] in W. destruct W as [_ W].
  specialize (W addr amount). rewrite L, count_if_rev in W. exact W.
Qed.

Section Closing.
Variable G : list xout.
Variable lenient : N -> bool.
Hypothesis HG : committed G lenient.
Lemma epoch_leaders_add k o : nth_error G k = Some o ->
  epoch_leaders G k ++ [xo_leader o] = map xo_leader (filter (fun x => xo_epoch x =? xo_epoch o) (firstn (S k) G)).
Proof.
  intros H. rewrite (firstn_S G k o H), filter_app, map_app. cbn [filter]. rewrite N.eqb_refl. cbn [map]. f_equal.
  unfold epoch_leaders. destruct k as [|j]; [reflexivity|].
  destruct (nth_error G j) as [p|] eqn:Ep.
  - pose proof (cm_next _ _ HG j p o Ep H) as X. destruct (xo_close p) eqn:Ecp.
    + rewrite filter_nil; [reflexivity|]. intros x Hx. apply nth_firstn in Hx as (i & Hi & Hx). apply N.eqb_neq.
      assert (xo_epoch x <= xo_epoch p) as L.
      { destruct (Nat.eq_dec i j) as [->|]; [rewrite Ep in Hx; injection Hx as ->; reflexivity|].
        replace j with (i + S (j - i - 1))%nat in Ep by (clear -Hi n; lia).
        destruct (order_later G lenient HG i (j - i - 1) x p Hx Ep) as [L|[L _]]; [apply N.lt_le_incl; exact L|rewrite L; reflexivity]. }
      clear -L X. lia.
    + destruct X as [-> _]. reflexivity.
  - exfalso. apply nth_error_None in Ep. assert (nth_error G (S j) <> None) as Z by congruence.
    apply nth_error_Some in Z. clear -Ep Z. lia.
Qed.
Lemma closing_leaders k o : nth_error G k = Some o -> xo_close o = true ->
  epoch_leaders G k ++ [xo_leader o] = map xo_leader (filter (fun x => xo_epoch x =? xo_epoch o) G).
Proof.
  intros H Hc. rewrite (epoch_leaders_add k o H). f_equal.
  rewrite <- (firstn_skipn (S k) G) at 2. rewrite filter_app, (filter_nil _ (skipn (S k) G)), app_nil_r; [reflexivity|].
  intros x Hx. apply nth_skipn in Hx as (j & Hj & Hx).
  replace j with (k + S (j - k - 1))%nat in Hx by (clear -Hj; lia).
  destruct (order_later G lenient HG k (j - k - 1) o x H Hx) as [L|[_ [_ L]]]; [|congruence].
  apply N.eqb_neq. clear -L. lia.
Qed.

Context {state tx : Type}.
Variable recover : N -> option tx.
Variable tx_gas : tx -> N.
Variable transact : benv -> state -> tx -> tres state.
Variable root_call : benv -> N -> state -> option state.
Variable hist_call : benv -> N -> state -> option state.
Variable close_call : benv -> N -> N -> list (N * N) -> list slot -> N -> N -> state -> option state.
Variable entry : state -> list slot * option committee.
Variable stroot : state -> N.
Variable txroot : list tx -> N.
Variable rcroot : list N -> N.
Variable hash : header -> N.
Notation blk := (block state tx).
Notation IsBlock := (is_block recover tx_gas transact root_call hist_call close_call stroot txroot rcroot hash).
Notation BatchBlocks := (batch_blocks recover tx_gas transact root_call hist_call close_call stroot txroot rcroot hash).
Notation OutputBlocks := (output_blocks recover tx_gas transact root_call hist_call close_call stroot txroot rcroot hash).
Notation Chain := (chain recover tx_gas transact root_call hist_call close_call entry stroot txroot rcroot hash G).
Notation Closing := (closing state tx).
Notation EpochBlocks := (epoch_blocks state tx).

Lemma epoch_blocks_shape (l : list blk) : forall el s, EpochBlocks l = (el, Some s) ->
  exists q, l = el ++ s :: q /\ Forall (fun b => Closing b = false) el /\ (q = [] \/ Closing s = true).
Proof.
  induction l as [|b l IH]; intros el s E; [discriminate E|].
  destruct l as [|c l].
  - cbn in E. injection E as <- <-. exists []. auto.
  - cbn [epoch_blocks] in E. destruct (Closing b) eqn:Cb.
    + injection E as <- <-. exists (c :: l). auto.
    + change (let '(l0, s0) := EpochBlocks (c :: l) in (b :: l0, s0)) with
        (let '(l0, s0) := EpochBlocks (c :: l) in (b :: l0, s0)) in E.
      destruct (EpochBlocks (c :: l)) as [el' s'] eqn:E'. cbn [epoch_blocks] in E'. rewrite E' in E. injection E as <- ->.
      destruct (IH el' s eq_refl) as (q & -> & F & Q). exists q. split; [reflexivity|]. split; [constructor; assumption|exact Q].
Qed.
Lemma is_block_wd o i cl addr bd fee limit mix worker raw acc (prev b : blk) :
  IsBlock o i cl addr bd fee limit mix worker raw acc prev b -> h_wd (b_hdr b) = if cl then rewards acc else [].
Proof. intros (? & ? & ? & ? & ? & _ & _ & _ & _ & E). rewrite E. reflexivity. Qed.

(* the blocks of an output: nothing but the last can close, and the last pays *)
Definition pays (o : xout) (acc : xacc) (new : list blk) : Prop :=
  new = [] \/ exists m b, new = m ++ [b] /\ Forall (fun c => Closing c = false) m /\ h_beacon (b_hdr b) = xo_digest o /\
    Closing b = xo_close o /\ h_extra (b_hdr b) = (if xo_close o then Some (xo_seed o) else None) /\
    (xo_close o = true -> h_wd (b_hdr b) = rewards acc).
Lemma rewards_slots sl acc : rewards (with_slots sl acc) = rewards acc.
Proof. reflexivity. Qed.
Lemma is_block_extra o i cl addr bd fee limit mix worker raw acc (prev b : blk) :
  IsBlock o i cl addr bd fee limit mix worker raw acc prev b -> h_extra (b_hdr b) = if cl then Some (xo_seed o) else None.
Proof. intros (? & ? & ? & ? & ? & _ & _ & _ & _ & E). rewrite E. reflexivity. Qed.
Lemma batch_blocks_pays o i bs ds acc prev new a : BatchBlocks o i bs ds acc prev new a -> pays o acc new.
Proof.
  intros H. induction H as [i acc prev|i addr x bs bd ds acc prev b l sl acc' HB HI H IH]; [left; reflexivity|].
  right. destruct (is_block_fields _ _ _ _ _ _ _ _ _ _ _ _ _ _ _ _ _ _ _ _ _ _ _ HB) as (F1 & F2 & _).
  pose proof (is_block_wd _ _ _ _ _ _ _ _ _ _ _ _ _ HB) as Wd. pose proof (is_block_extra _ _ _ _ _ _ _ _ _ _ _ _ _ HB) as Ex.
  destruct bs as [|y bs].
  - inversion H; subst. exists [], b. cbn [app]. rewrite andb_true_r in *. repeat split; auto.
    intros Hc. rewrite Wd, Hc. reflexivity.
  - destruct IH as [->|(m & c & -> & M1 & M2 & M3 & M4 & M5)]; [inversion H|].
    exists (b :: m), c. split; [reflexivity|]. split; [|auto]. constructor; [|exact M1]. rewrite F2. apply andb_false_r.
Qed.
Lemma output_pays o acc prev new a : OutputBlocks o acc prev new a -> pays o acc new.
Proof.
  unfold output_blocks. destruct (batches_of o).
  - intros [_ H]. destruct (xo_close o) eqn:Hc; [|left; exact H]. right.
    destruct H as (be & b & _ & -> & HB). exists [], b.
    destruct (is_block_fields _ _ _ _ _ _ _ _ _ _ _ _ _ _ _ _ _ _ _ _ _ _ _ HB) as (F1 & F2 & _). rewrite Hc.
    rewrite (is_block_wd _ _ _ _ _ _ _ _ _ _ _ _ _ HB), (is_block_extra _ _ _ _ _ _ _ _ _ _ _ _ _ HB). repeat split; auto.
  - apply batch_blocks_pays.
Qed.

Lemma chain_genesis_last g k l a : Chain g k l a -> exists body, l = body ++ [g].
Proof.
  intros H. induction H as [|k prev l acc o new acc' H (body & E) Ho Hb]; [exists []; reflexivity|].
  exists (rev new ++ body). rewrite E, app_assoc. reflexivity.
Qed.

(* every closing block after genesis *)
Lemma chain_closing g k l a : Chain g k l a -> forall p b rest, l = p ++ b :: rest -> rest <> [] -> Closing b = true ->
  exists o m s q, In o G /\ xo_close o = true /\ xo_digest o = h_beacon (b_hdr b) /\ h_extra (b_hdr b) = Some (xo_seed o) /\
    rest = m ++ s :: q /\ Forall (fun c => Closing c = false) m /\ (s = g /\ q = [] \/ Closing s = true) /\
    forall cm, snd (entry (b_state s)) = Some cm -> forall addr amount,
      In (addr, amount) (h_wd (b_hdr b)) <->
      let n := N.of_nat (length (filter (fun x => hits cm addr (xo_leader x)) (filter (fun x => xo_epoch x =? xo_epoch o) G))) in
      0 < n /\ amount = n mod 2 ^ 32.
Proof.
  intros H. induction H as [|k prev l acc o new acc' H IH Ho Hb]; intros p b rest E Hr Hcl.
  - exfalso. destruct p as [|x p]; [injection E as _ <-; congruence|]. destruct p; discriminate E.
  - pose proof (nth_error_In _ _ Ho) as Hin.
    destruct (output_pays _ _ _ _ _ Hb) as [->|(m & c & -> & M1 & M2 & M3 & M4 & M5)].
    + cbn [rev app] in E. apply (IH p b rest E Hr Hcl).
    + rewrite rev_app_distr in E. cbn [rev app] in E.
      destruct p as [|x p].
      * injection E as <- <-. rewrite Hcl in M3. symmetry in M3. rewrite M3 in M4. specialize (M5 M3).
        destruct (chain_acc _ _ _ _ _ _ _ _ _ _ _ _ _ HG _ _ _ _ H) as (el & s & I1 & I2 & I3 & I4).
        destruct (epoch_blocks_shape _ _ _ I1) as (q & Eq & Fe & Q).
        exists o, (rev m ++ el), s, q.
        split; [exact Hin|]. split; [exact M3|]. split; [symmetry; exact M2|]. split; [exact M4|].
        split; [rewrite Eq, app_assoc; reflexivity|]. split; [|split].
        -- apply Forall_app. split; [|exact Fe]. apply Forall_forall. intros y Hy. rewrite Forall_forall in M1. apply M1, in_rev, Hy.
        -- destruct Q as [->|Q]; [left|right; exact Q]. split; [|reflexivity].
           destruct (chain_genesis_last _ _ _ _ H) as (body & Eb). rewrite Eb in Eq. apply app_inj_tail in Eq as [_ ->]. reflexivity.
        -- intros cm Hcm addr amount. rewrite M5. rewrite Hcm in I3. destruct acc as [sl ls ocm]. cbn [xa_cm xa_leaders] in I3, I4.
           subst ocm ls. unfold count_leader. cbn [xa_slots xa_leaders xa_cm].
           rewrite rewards_exact, (closing_leaders k o Ho M3), count_if_map. reflexivity.
      * injection E as Ex E. subst x.
        (* b is not among the other new blocks *)
        destruct (Nat.lt_ge_cases (length p) (length (rev m))) as [Hl|Hl].
        -- exfalso. assert (Hb2 : In b (rev m)).
           { apply nth_error_In with (n := length p). rewrite <- (nth_error_app1 (rev m) (prev :: l) Hl), E. apply nth_error_app_len. }
           apply in_rev in Hb2. rewrite Forall_forall in M1. rewrite (M1 b Hb2) in Hcl. discriminate Hcl.
        -- assert (Ep : p = rev m ++ skipn (length (rev m)) p).
           { rewrite <- (firstn_skipn (length (rev m)) p) at 1. f_equal.
             assert (Z : firstn (length (rev m)) (rev m ++ prev :: l) = firstn (length (rev m)) (p ++ b :: rest)) by (rewrite E; reflexivity).
             rewrite !firstn_app, firstn_all, Nat.sub_diag in Z. cbn [firstn] in Z. rewrite app_nil_r in Z.
             replace (length (rev m) - length p)%nat with 0%nat in Z by (clear -Hl; lia). cbn [firstn] in Z.
             rewrite app_nil_r in Z. symmetry. exact Z. }
           rewrite Ep, <- app_assoc in E. apply app_inv_head in E. apply (IH _ _ _ E Hr Hcl).
Qed.
End Closing.
