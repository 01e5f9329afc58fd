(* C51, part 3: order of the outputs, what a restart rebuilds. *)
From Verif Require Import Util Types CommitteeModel GasModel GasProofs ExecModel ExecSpec ExecProofs ExecProofs2.
Local Open Scope N_scope.

(* ---- the order of the committed outputs ---- *)
Section Order.
Variable G : list xout.
Variable lenient : N -> bool.
Hypothesis HG : committed G lenient.

Lemma order_later i : forall d o o', nth_error G i = Some o -> nth_error G (i + S d) = Some o' ->
  (xo_epoch o < xo_epoch o') \/ (xo_epoch o = xo_epoch o' /\ xo_round o < xo_round o' /\ xo_close o = false).
Proof.
  induction d as [|d IH]; intros o o' Hi Hj.
  - rewrite Nat.add_1_r in Hj. pose proof (cm_next _ _ HG i o o' Hi Hj) as X.
    destruct (xo_close o); [left; rewrite X; apply N.lt_add_pos_r; reflexivity|right]. destruct X as [-> X]. auto.
  - destruct (nth_error G (i + S d)) as [m|] eqn:Em.
    + replace (i + S (S d))%nat with (S (i + S d)) in Hj by (rewrite <- !plus_n_Sm; reflexivity).
      pose proof (cm_next _ _ HG _ m o' Em Hj) as X. pose proof (IH o m Hi eq_refl) as Y.
      assert (Z : xo_epoch m < xo_epoch o' \/ xo_epoch m = xo_epoch o' /\ xo_round m < xo_round o').
      { destruct (xo_close m); [left; rewrite X; apply N.lt_add_pos_r; reflexivity|right]. destruct X as [-> X]. auto. }
      clear -Y Z. destruct Y as [Y|(Y1 & Y2 & Y3)], Z as [Z|[Z1 Z2]].
      * left. etransitivity; eassumption.
      * left. rewrite <- Z1. exact Y.
      * left. rewrite Y1. exact Z.
      * right. split; [congruence|]. split; [|exact Y3]. etransitivity; eassumption.
    + exfalso. apply nth_error_None in Em. assert (nth_error G (i + S (S d)) <> None) as Z by congruence.
      apply nth_error_Some in Z. clear -Em Z. lia.
Qed.
Lemma nth_skipn (k : nat) o : In o (skipn k G) -> exists j, (k <= j)%nat /\ nth_error G j = Some o.
Proof.
  intros H. apply In_nth_error in H as (d & Hd). exists (k + d)%nat. split; [apply Nat.le_add_r|].
  clear -Hd. revert k Hd. induction G as [|x t IH]; intros [|k] Hd; cbn in *; try assumption.
  - destruct d; discriminate Hd.
  - apply IH. exact Hd.
Qed.
Lemma nth_firstn (k : nat) o : In o (firstn k G) -> exists j, (j < k)%nat /\ nth_error G j = Some o.
Proof.
  intros H. apply In_nth_error in H as (d & Hd).
  assert (Hl : (d < length (firstn k G))%nat) by (apply nth_error_Some; congruence).
  rewrite firstn_length in Hl. exists d. split; [clear -Hl; lia|].
  rewrite <- (firstn_skipn k G). rewrite nth_error_app1; [exact Hd|]. rewrite firstn_length. exact Hl.
Qed.
Lemma firstn_S (k : nat) o : nth_error G k = Some o -> firstn (S k) G = firstn k G ++ [o].
Proof.
  clear HG. revert k. induction G as [|x t IH]; intros [|k] H; try discriminate H.
  - injection H as ->. reflexivity.
  - cbn. f_equal. apply IH. exact H.
Qed.
Lemma filter_nil {A} (p : A -> bool) l : (forall x, In x l -> p x = false) -> filter p l = [].
Proof.
  induction l as [|x l IH]; intros H; [reflexivity|]. cbn. rewrite (H x (or_introl eq_refl)). apply IH.
  intros y Hy. apply H. right. exact Hy.
Qed.

(* leaders of the running epoch among the first k outputs *)
Definition epoch_leaders (k : nat) : list N :=
  match k with
  | O => []
  | S j => match nth_error G j with
           | None => []
           | Some o => if xo_close o then [] else map xo_leader (filter (fun x => xo_epoch x =? xo_epoch o) (firstn k G))
           end
  end.
Lemma epoch_leaders_next k o : nth_error G k = Some o ->
  epoch_leaders (S k) = if xo_close o then [] else epoch_leaders k ++ [xo_leader o].
Proof.
  intros H. unfold epoch_leaders at 1. rewrite H. destruct (xo_close o) eqn:Ec; [reflexivity|].
  rewrite (firstn_S k o H), filter_app, map_app. cbn [filter]. rewrite N.eqb_refl. cbn [map]. f_equal.
  unfold epoch_leaders. destruct k as [|j]; [reflexivity|].
  destruct (nth_error G j) as [p|] eqn:Ep.
  - pose proof (cm_next _ _ HG j p o Ep H) as X. destruct (xo_close p) eqn:Ecp.
    + rewrite filter_nil; [reflexivity|]. intros x Hx. apply nth_firstn in Hx as (i & Hi & Hx). apply N.eqb_neq.
      assert (xo_epoch x <= xo_epoch p) as L.
      { destruct (Nat.eq_dec i j) as [->|]; [rewrite Ep in Hx; injection Hx as ->; reflexivity|].
        replace j with (i + S (j - i - 1))%nat in Ep by (clear -Hi n; lia).
        destruct (order_later i (j - i - 1) x p Hx Ep) as [L|[L _]]; [apply N.lt_le_incl; exact L|rewrite L; reflexivity]. }
      clear -L X. lia.
    + destruct X as [-> _]. reflexivity.
  - exfalso. apply nth_error_None in Ep. assert (nth_error G (S j) <> None) as Z by congruence.
    apply nth_error_Some in Z. clear -Ep Z. lia.
Qed.
(* the leaders a restart counts *)
Lemma restart_leaders k o : nth_error G k = Some o -> xo_close o = false ->
  map xo_leader (filter (fun x => (xo_epoch x =? xo_epoch o) && negb (xo_round x =? 0) && (xo_round x <=? xo_round o)) G) =
  epoch_leaders (S k).
Proof.
  intros H Hc. unfold epoch_leaders. rewrite H, Hc. f_equal.
  rewrite <- (firstn_skipn (S k) G) at 1. rewrite filter_app.
  rewrite (filter_nil _ (skipn (S k) G)).
  - rewrite app_nil_r. apply filter_ext_in. intros x Hx. pose proof Hx as Hx'. apply nth_firstn in Hx as (i & Hi & Hx).
    destruct (N.eqb_spec (xo_epoch x) (xo_epoch o)) as [E|E]; [|reflexivity]. cbn [andb].
    assert (In x G) as Hin by (eapply nth_error_In; exact Hx).
    destruct (cm_range _ _ HG x Hin) as (_ & [R _] & _).
    rewrite (proj2 (N.eqb_neq _ _)) by (intros Z; rewrite Z in R; discriminate R). cbn [negb andb].
    apply N.leb_le. destruct (Nat.eq_dec i k) as [->|]; [rewrite H in Hx; injection Hx as ->; reflexivity|].
    replace k with (i + S (k - i - 1))%nat in H by (clear -Hi n; lia).
    destruct (order_later i (k - i - 1) x o Hx H) as [L|[_ [L _]]]; [exfalso; clear -L E; lia|apply N.lt_le_incl; exact L].
  - intros x Hx. apply nth_skipn in Hx as (j & Hj & Hx).
    replace j with (k + S (j - k - 1))%nat in Hx by (clear -Hj; lia).
    destruct (order_later k (j - k - 1) o x H Hx) as [L|[_ [L _]]].
    + rewrite (proj2 (N.eqb_neq _ _)); [reflexivity|clear -L; lia].
    + rewrite (proj2 (N.leb_gt _ _) L). apply andb_false_r.
Qed.
Lemma position_at : forall k o, nth_error G k = Some o -> position (xo_digest o) G = Some k.
Proof.
  pose proof (cm_digests _ _ HG) as ND. clear HG. induction G as [|x t IH]; intros [|k] o H; try discriminate H.
  - injection H as ->. cbn. rewrite N.eqb_refl. reflexivity.
  - cbn [position]. cbn [map] in ND. inversion ND as [|? ? N1 N2]; subst. cbn in H.
    destruct (N.eqb_spec (xo_digest x) (xo_digest o)) as [E|E].
    + exfalso. apply N1. rewrite E. apply in_map. eapply nth_error_In. exact H.
    + rewrite (IH N2 _ _ H). reflexivity.
Qed.
End Order.

Lemma fold_blocks_app l : forall acc l', fold_blocks acc (l ++ l') =
  match fold_blocks acc l with Some a => fold_blocks a l' | None => None end.
Proof.
  induction l as [|b l IH]; intros acc l'; [reflexivity|]. cbn. destruct (inc_block _ _ _ _); [apply IH|reflexivity].
Qed.

Section Restart.
Context {state tx : Type}.
Variable recover : N -> option tx.
Variable tx_gas : tx -> N.
Variable transact : benv -> state -> tx -> tres state.
Variable root_call : benv -> N -> state -> option state.
Variable hist_call : benv -> N -> state -> option state.
Variable close_call : benv -> N -> N -> list (N * N) -> list slot -> N -> N -> state -> option state.
Variable entry : state -> list slot * option committee.
Variable stroot : state -> N.
Variable txroot : list tx -> N.
Variable rcroot : list N -> N.
Variable hash : header -> N.
Variable lenient : N -> bool.
Variable G : list xout.
Hypothesis HG : committed G lenient.
Notation blk := (block state tx).
Notation IsBlock := (is_block recover tx_gas transact root_call hist_call close_call stroot txroot rcroot hash).
Notation BatchBlocks := (batch_blocks recover tx_gas transact root_call hist_call close_call stroot txroot rcroot hash).
Notation OutputBlocks := (output_blocks recover tx_gas transact root_call hist_call close_call stroot txroot rcroot hash).
Notation Chain := (chain recover tx_gas transact root_call hist_call close_call entry stroot txroot rcroot hash G).
Notation Rebuild := (rebuild state tx entry G).
Notation EpochBlocks := (epoch_blocks state tx).
Notation Closing := (closing state tx).

Definition hd_of (b : blk) : bhdr := of_header (b_hdr b).

Lemma is_block_fields o i cl addr bd fee limit mix worker raw acc (prev b : blk) :
  IsBlock o i cl addr bd fee limit mix worker raw acc prev b ->
  h_beacon (b_hdr b) = xo_digest o /\ Closing b = cl /\ h_limit (b_hdr b) = limit /\
  h_nonce (b_hdr b) = xo_epoch o * 2 ^ 32 + xo_round o /\ h_diff (b_hdr b) = N.of_nat i * 2 ^ 16 + worker.
Proof.
  intros (? & ? & ? & ? & ? & _ & _ & _ & _ & E). unfold closing. rewrite E. cbn.
  repeat split. destruct cl; reflexivity.
Qed.
Lemma batch_blocks_slots o i bs ds acc prev new a : BatchBlocks o i bs ds acc prev new a ->
  Forall (fun p => xb_worker (snd p) < 2 ^ 16) bs ->
  fold_blocks (xa_slots acc) (map hd_of new) = Some (xa_slots a) /\
  xa_leaders a = xa_leaders acc /\ xa_cm a = xa_cm acc.
Proof.
  intros H. induction H as [i acc prev|i addr x bs bd ds acc prev b l sl acc' HB HI H IH]; intros Hw; [auto|].
  inversion Hw as [|? ? Hx Hws]; subst. cbn [snd] in Hx. destruct (IH Hws) as (I1 & I2 & I3). cbn in I2, I3.
  split; [|auto]. cbn [map fold_blocks].
  destruct (is_block_fields _ _ _ _ _ _ _ _ _ _ _ _ _ HB) as (_ & _ & F3 & _ & F5).
  unfold hd_of at 1 2 3. cbn [of_header bh_diff bh_used bh_limit]. rewrite F3, F5, worker_id_of_low.
  rewrite N.add_comm, N.mod_add by discriminate. rewrite N.mod_small by exact Hx. rewrite HI. exact I1.
Qed.
(* nothing in the middle of an output closes an epoch *)
Lemma batch_blocks_open o i bs ds acc prev new a : BatchBlocks o i bs ds acc prev new a -> xo_close o = false ->
  Forall (fun b => Closing b = false) new.
Proof.
  intros H. induction H as [i acc prev|i addr x bs bd ds acc prev b l sl acc' HB HI H IH]; intros Hc; constructor.
  - destruct (is_block_fields _ _ _ _ _ _ _ _ _ _ _ _ _ HB) as (_ & F & _). rewrite F, Hc. reflexivity.
  - apply IH. exact Hc.
Qed.
Lemma batch_blocks_last o i bs ds acc prev new a : BatchBlocks o i bs ds acc prev new a -> bs <> [] ->
  new <> [] /\ h_beacon (b_hdr (last new prev)) = xo_digest o /\ Closing (last new prev) = xo_close o /\
  h_nonce (b_hdr (last new prev)) = xo_epoch o * 2 ^ 32 + xo_round o.
Proof.
  intros H. induction H as [i acc prev|i addr x bs bd ds acc prev b l sl acc' HB HI H IH]; intros Hn; [congruence|].
  split; [discriminate|]. rewrite last_cons.
  destruct (is_block_fields _ _ _ _ _ _ _ _ _ _ _ _ _ HB) as (F1 & F2 & _ & F4 & _).
  destruct bs as [|y bs].
  - inversion H; subst. cbn [last]. rewrite andb_true_r in F2. auto.
  - apply IH. discriminate.
Qed.
Lemma output_shape o acc prev new a : OutputBlocks o acc prev new a ->
  Forall (fun p => xb_worker (snd p) < 2 ^ 16) (batches_of o) ->
  (new = [] /\ a = acc /\ xo_close o = false /\ batches_of o = []) \/
  (new <> [] /\ h_beacon (b_hdr (last new prev)) = xo_digest o /\ Closing (last new prev) = xo_close o /\
   h_nonce (b_hdr (last new prev)) = xo_epoch o * 2 ^ 32 + xo_round o /\
   (xo_close o = false -> Forall (fun b => Closing b = false) new /\
      fold_blocks (xa_slots acc) (map hd_of new) = Some (xa_slots a) /\ xa_leaders a = xa_leaders acc /\ xa_cm a = xa_cm acc)).
Proof.
  unfold output_blocks. destruct (batches_of o) as [|p bs].
  - intros [-> H] _. destruct (xo_close o).
    + right. destruct H as (be & b & _ & -> & HB). cbn [last].
      destruct (is_block_fields _ _ _ _ _ _ _ _ _ _ _ _ _ HB) as (F1 & F2 & _ & F4 & _).
      repeat split; auto; discriminate.
    + left. auto.
  - intros H Hw. right.
    destruct (batch_blocks_last _ _ _ _ _ _ _ _ H) as (L1 & L2 & L3 & L4); [discriminate|].
    repeat split; auto.
    + eapply batch_blocks_open; eassumption.
    + apply (batch_blocks_slots _ _ _ _ _ _ _ _ H Hw).
    + apply (batch_blocks_slots _ _ _ _ _ _ _ _ H Hw).
    + apply (batch_blocks_slots _ _ _ _ _ _ _ _ H Hw).
Qed.

Lemma epoch_blocks_open (new : list blk) : forall p l, Forall (fun b => Closing b = false) new ->
  EpochBlocks (new ++ p :: l) = (new ++ fst (EpochBlocks (p :: l)), snd (EpochBlocks (p :: l))).
Proof.
  induction new as [|b new IH]; intros p l H; cbn [app].
  - destruct (EpochBlocks (p :: l)); reflexivity.
  - inversion H as [|? ? Hb Hr]; subst. specialize (IH p l Hr).
    destruct (new ++ p :: l) as [|c t] eqn:E; [destruct new; discriminate E|].
    cbn [epoch_blocks]. rewrite Hb. cbn [epoch_blocks] in IH. rewrite IH. reflexivity.
Qed.

Lemma workers_of o : In o G -> Forall (fun p => xb_worker (snd p) < 2 ^ 16) (batches_of o).
Proof. intros H. apply Forall_forall. intros [a x] Hx. exact (cm_workers _ _ HG o a x H Hx). Qed.

(* the accumulator of a chain, read off its blocks and the outputs *)
Lemma chain_acc g k l a : Chain g k l a ->
  exists el s, EpochBlocks l = (el, Some s) /\
    fold_blocks (fst (entry (b_state s))) (map hd_of (rev el)) = Some (xa_slots a) /\
    xa_cm a = snd (entry (b_state s)) /\ xa_leaders a = epoch_leaders G k.
Proof.
  intros H. induction H as [|k prev l acc o new acc' H IH Ho Hb].
  - exists [], g. auto.
  - rewrite (epoch_leaders_next G lenient HG k o Ho).
    pose proof (nth_error_In _ _ Ho) as Hin.
    destruct IH as (el & s & I1 & I2 & I3 & I4).
    destruct (output_shape _ _ _ _ _ Hb (workers_of o Hin)) as
      [(-> & -> & Hc & _)|(Hn & B1 & B2 & B3 & B4)].
    + rewrite Hc. cbn [rev app]. exists el, s. cbn. rewrite I4. auto.
    + destruct (xo_close o) eqn:Hc.
      * destruct (last_app_rev new prev l) as (t & Et). rewrite Et.
        exists [], (last new prev).
        assert (Ht : t <> []).
        { intros ->. assert (Z : length (rev new ++ prev :: l) = 1%nat) by (rewrite Et; reflexivity).
          rewrite app_length, rev_length in Z. cbn in Z. destruct new; [congruence|cbn in Z; clear -Z; lia]. }
        destruct t as [|c t]; [congruence|]. cbn [epoch_blocks]. rewrite B2. auto.
      * destruct (B4 eq_refl) as (C1 & C2 & C3 & C4).
        assert (Fr : Forall (fun b => Closing b = false) (rev new)).
        { apply Forall_forall. intros x Hx. rewrite Forall_forall in C1. apply C1. apply in_rev. exact Hx. }
        rewrite (epoch_blocks_open (rev new) prev l Fr), I1. cbn [fst snd].
        exists (rev new ++ el), s. split; [reflexivity|].
        rewrite rev_app_distr, rev_involutive, map_app, fold_blocks_app, I2.
        cbn in C2, C3, C4. rewrite C2, C3, C4, I4. auto.
Qed.

Definition in_range (l : list blk) : Prop := forall el s, EpochBlocks l = (el, Some s) -> Forall (fun b : blk =>
  (N.to_nat (worker_id_of (h_diff (b_hdr b))) < length (fst (entry (b_state s))))%nat) el.
(* restarting resumes at a position whose chain is the stored one, with the accumulator of that chain *)
Lemma restart_point g k l a : Chain g k l a ->
  exists j a', (j <= k)%nat /\ resume_at state tx G l = j /\ Chain g j l a' /\
    (forall x, Rebuild l = Some x -> x = a') /\
    (in_range l -> Rebuild l = Some a').
Proof.
  intros H. induction H as [|k prev l acc o new acc' H IH Ho Hb].
  - exists 0%nat, (acc_of entry g). split; [reflexivity|]. split; [reflexivity|]. split; [constructor|].
    unfold rebuild. cbn. unfold acc_of. destruct (entry (b_state g)) as [sl cm]. cbn.
    split; [intros x E; injection E as <-; reflexivity|]. auto.
  - pose proof (nth_error_In _ _ Ho) as Hin.
    pose proof (ch_output recover tx_gas transact root_call hist_call close_call entry stroot txroot rcroot hash G g
      k prev l acc o new acc' H Ho Hb) as H'.
    destruct (output_shape _ _ _ _ _ Hb (workers_of o Hin)) as
      [(-> & -> & Hc & _)|(Hn & B1 & B2 & B3 & B4)].
    + cbn [rev app]. destruct IH as (j & a' & J1 & J2 & J3). exists j, a'. split; [apply le_S; exact J1|]. auto.
    + exists (S k). eexists. split; [reflexivity|]. split; [|split; [exact H'|]].
      * destruct (last_app_rev new prev l) as (t & Et). rewrite Et.
        assert (Ht : t <> []).
        { intros ->. assert (Z : length (rev new ++ prev :: l) = 1%nat) by (rewrite Et; reflexivity).
          rewrite app_length, rev_length in Z. cbn in Z. destruct new; [congruence|cbn in Z; clear -Z; lia]. }
        destruct t as [|c t]; [congruence|]. cbn [resume_at]. rewrite B1, (position_at G lenient HG k o Ho). reflexivity.
      * destruct (chain_acc _ _ _ _ H') as (el & s & I1 & I2 & I3 & I4).
        assert (RL : rebuilt_leaders state tx G (rev new ++ prev :: l) = epoch_leaders G (S k)).
        { destruct (last_app_rev new prev l) as (t & Et). rewrite Et.
          assert (Ht : t <> []).
          { intros ->. assert (Z : length (rev new ++ prev :: l) = 1%nat) by (rewrite Et; reflexivity).
            rewrite app_length, rev_length in Z. cbn in Z. destruct new; [congruence|cbn in Z; clear -Z; lia]. }
          destruct t as [|c t]; [congruence|]. cbn [rebuilt_leaders]. rewrite B2.
          destruct (xo_close o) eqn:Hc.
          - cbn [epoch_leaders]. rewrite Ho, Hc. reflexivity.
          - rewrite B3. destruct (cm_range _ _ HG o Hin) as (R1 & [_ R2] & _).
            rewrite <- (nonce_val _ _ R1 R2), (nonce_roundtrip _ _ R1 R2).
            apply (restart_leaders G lenient HG k o Ho Hc). }
        unfold rebuild. rewrite I1, RL.
        match type of I4 with xa_leaders ?A = _ => remember A as A' eqn:EA end.
        destruct (entry (b_state s)) as [sl cm] eqn:Ee. cbn [fst snd] in *.
        assert (Em : map (fun b => of_header (b_hdr b)) (rev el) = map hd_of (rev el)) by reflexivity. rewrite Em, I2.
        assert (Ea : {| xa_slots := xa_slots A'; xa_leaders := epoch_leaders G (S k); xa_cm := cm |} = A').
        { rewrite <- I4, <- I3. destruct A'; reflexivity. }
        cbn [option_map]. rewrite Ea.
        split.
        -- intros x Hx. destruct (forallb _ _); [injection Hx as <-; reflexivity|discriminate Hx].
        -- intros Hw. specialize (Hw _ _ I1). rewrite Ee in Hw. cbn [fst] in Hw.
           rewrite (proj2 (forallb_forall _ _)); [reflexivity|].
           intros h Hh. apply in_map_iff in Hh as (b & <- & Hb'). apply in_rev in Hb'.
           rewrite Forall_forall in Hw. apply Nat.ltb_lt. apply Hw. exact Hb'.
Qed.
End Restart.
