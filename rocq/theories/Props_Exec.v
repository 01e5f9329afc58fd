(* C51: the committed outputs alone determine the chain of blocks: every node, through any node-local
   faults, crashes and restarts, stores a prefix of the same chain, and catches up with it. *)
From Verif Require Import Util Types CommitteeModel GasModel GasSpec ExecModel ExecSpec ExecProofs ExecProofs2 ExecProofs3 ExecProofs4 ExecProofs5 ExecProofs6.
Local Open Scope N_scope.

Section C51.
Variables state tx : Type.
Variable recover : N -> option tx.
Variable tx_gas : tx -> N.
Variable transact : benv -> state -> tx -> tres state.
Variable root_call : benv -> N -> state -> option state.
Variable hist_call : benv -> N -> state -> option state.
Variable close_call : benv -> N -> N -> list (N * N) -> list slot -> N -> N -> state -> option state.
Variable entry : state -> list slot * option committee.
Variable stroot : state -> N.
Variable txroot : list tx -> N.
Variable rcroot : list N -> N.
Variable hash : header -> N.
Variable lenient : N -> bool.
Variable G : list xout.
Variable g : block state tx.
Notation Chain := (chain recover tx_gas transact root_call hist_call close_call entry stroot txroot rcroot hash G g).
Notation Run := (xrun state tx recover tx_gas transact root_call hist_call close_call entry stroot txroot rcroot hash lenient G g).

(* Whatever fails and whenever the node is killed, the database holds exactly the chain of the first k
   outputs for some k: whole outputs, in order, nothing else. *)
Theorem C51_stored_chain_is_the_committed_one : committed G lenient -> forall evs,
  exists k a, Chain k (n_db (Run evs)) a.
Proof.
  intros HG evs. destruct (inv_run recover tx_gas transact root_call hist_call close_call entry stroot txroot rcroot hash
    lenient G HG g evs) as ((k & a & H & _) & _). eauto.
Qed.
(* and that chain is a function of k *)
Theorem C51_chain_unique : forall k l1 a1 l2 a2, Chain k l1 a1 -> Chain k l2 a2 -> l1 = l2 /\ a1 = a2.
Proof. intros k l1 a1 l2 a2 H1 H2. eapply chain_fun; eassumption. Qed.

(* Two nodes with different histories: one chain extends the other, block for block. *)
Theorem C51_replicas_agree : committed G lenient -> forall evs1 evs2,
  (exists p, n_db (Run evs1) = p ++ n_db (Run evs2)) \/ (exists p, n_db (Run evs2) = p ++ n_db (Run evs1)).
Proof.
  intros HG evs1 evs2.
  destruct (C51_stored_chain_is_the_committed_one HG evs1) as (k1 & a1 & H1).
  destruct (C51_stored_chain_is_the_committed_one HG evs2) as (k2 & a2 & H2).
  destruct (Nat.le_ge_cases k2 k1) as [L|L].
  - left. destruct (chain_grows _ _ _ _ _ _ _ _ _ _ _ _ _ _ _ _ H1 k2 L) as (p & l & a & H & E).
    destruct (C51_chain_unique _ _ _ _ _ H H2) as [-> _]. eauto.
  - right. destruct (chain_grows _ _ _ _ _ _ _ _ _ _ _ _ _ _ _ _ H2 k1 L) as (p & l & a & H & E).
    destruct (C51_chain_unique _ _ _ _ _ H H1) as [-> _]. eauto.
Qed.
(* A stored block is never replaced or removed. *)
Theorem C51_never_rewritten : committed G lenient -> forall evs more,
  exists p, n_db (Run (evs ++ more)) = p ++ n_db (Run evs).
Proof.
  intros HG evs more. unfold xrun. rewrite fold_left_app. apply run_grows; [exact HG|]. apply (inv_run _ _ _ _ _ _ _ _ _ _ _ _ _ HG).
Qed.

(* Every batch of an executed output has exactly one block, in the order of the output; an empty output has
   one block if it closes the epoch and none otherwise; an output not yet executed has none. *)
Theorem C51_each_batch_once : committed G lenient -> forall evs,
  exists k body, n_db (Run evs) = body ++ [g] /\ forall j o, nth_error G j = Some o ->
    map (fun b => h_ommers (b_hdr b)) (rev (filter (fun b => h_beacon (b_hdr b) =? xo_digest o) body)) =
    if (j <? k)%nat then match batches_of o with [] => if xo_close o then [0] else [] | _ => xo_digests o end else [].
Proof.
  intros HG evs. destruct (C51_stored_chain_is_the_committed_one HG evs) as (k & a & H).
  destruct (chain_digests _ _ _ _ _ _ _ _ _ _ _ _ _ _ _ _ (cm_digests _ _ HG) H) as (body & E & X). exists k, body. auto.
Qed.

(* The closing block of an epoch pays each address once per committed output of that epoch led by it: all
   outputs count, also those without a block and those executed before a restart; the committee is the one
   of the block the epoch started from. *)
Theorem C51_closing_block_pays_all_leaders : committed G lenient -> forall evs p b rest,
  n_db (Run evs) = p ++ b :: rest -> rest <> [] -> h_extra (b_hdr b) <> None ->
  exists o m s q, In o G /\ xo_close o = true /\ xo_digest o = h_beacon (b_hdr b) /\ h_extra (b_hdr b) = Some (xo_seed o) /\
    rest = m ++ s :: q /\ Forall (fun c => h_extra (b_hdr c) = None) m /\ (s = g /\ q = [] \/ h_extra (b_hdr s) <> None) /\
    forall cm, snd (entry (b_state s)) = Some cm -> forall addr amount,
      In (addr, amount) (h_wd (b_hdr b)) <->
      let n := N.of_nat (length (filter (fun x => hits cm addr (xo_leader x)) (filter (fun x => xo_epoch x =? xo_epoch o) G))) in
      0 < n /\ amount = n mod 2 ^ 32.
Proof.
  intros HG evs p b rest E Hr Hc. destruct (C51_stored_chain_is_the_committed_one HG evs) as (k & a & H).
  assert (Cl : forall c : block state tx, closing state tx c = true <-> h_extra (b_hdr c) <> None).
  { intros c. unfold closing. destruct (h_extra (b_hdr c)); split; congruence. }
  destruct (chain_closing _ _ HG _ _ _ _ _ _ _ _ _ _ _ _ _ _ _ H p b rest E Hr) as
    (o & m & s & q & X1 & X2 & X3 & X4 & X5 & X6 & X7 & X8); [apply Cl; exact Hc|].
  exists o, m, s, q. split; [exact X1|]. split; [exact X2|]. split; [exact X3|]. split; [exact X4|]. split; [exact X5|].
  split; [|split].
  - eapply Forall_impl; [|exact X6]. intros c Hcl. unfold closing in Hcl. cbn beta in Hcl. destruct (h_extra (b_hdr c)); [discriminate Hcl|reflexivity].
  - destruct X7 as [X7|X7]; [left; exact X7|right; apply Cl; exact X7].
  - exact X8.
Qed.

(* What a node tells consensus it executed is in its database. *)
Theorem C51_announced_is_durable : committed G lenient -> forall evs r num d t,
  In (r, num, d, t) (n_sent (Run evs)) ->
  exists o, In o G /\ r = xo_round o /\ num = xo_num o /\ d = xo_digest o /\
    match t with
    | None => batches_of o = [] /\ xo_close o = false
    | Some h => exists b, In b (n_db (Run evs)) /\ b_hdr b = h /\ h_beacon h = d
    end.
Proof.
  intros HG evs r num d t Hin. destruct (inv_run recover tx_gas transact root_call hist_call close_call entry stroot txroot rcroot hash
    lenient G HG g evs) as (_ & Hs & _). rewrite Forall_forall in Hs. destruct (Hs _ Hin) as (o & O1 & O2 & O3).
  cbn in O2, O3. injection O2 as -> -> ->. exists o. repeat split; auto.
Qed.

(* The canonical head a node shows is always its newest durable block: the blocks of an output that failed
   half way are never left visible. *)
Theorem C51_head_is_durable : committed G lenient ->
  workers_fit recover tx_gas transact root_call hist_call close_call entry stroot txroot rcroot hash G g ->
  forall evs, exists b t, n_db (Run evs) = b :: t /\ n_head (Run evs) = b_hdr b.
Proof.
  intros HG WF evs. destruct (inv_run recover tx_gas transact root_call hist_call close_call entry stroot txroot rcroot hash
    lenient G HG g evs) as ((k & a & H & _) & _ & Hh).
  destruct (chain_ne _ _ _ _ _ _ _ _ _ _ _ _ _ _ _ _ H) as (b & t & Eb). exists b, t. split; [exact Eb|].
  rewrite (Hh WF), Eb. reflexivity.
Qed.

(* After any history a restart followed by fault-free rounds brings a node to the end of the committed
   outputs, if the EVM itself does not fail and the outputs are what honest workers produce. *)
Theorem C51_restart_catches_up : committed G lenient ->
  workers_fit recover tx_gas transact root_call hist_call close_call entry stroot txroot rcroot hash G g ->
  evm_ok tx_gas transact root_call hist_call close_call ->
  (forall o, In o G -> length (batches_of o) = length (xo_digests o)) ->
  (forall o addr x, In o G -> In (addr, x) (batches_of o) -> batch_gas recover tx_gas (xb_txs x) <= 30000000) ->
  (forall k l a o, Chain k l a -> nth_error G k = Some o -> authority_address a (xo_leader o) <> None) ->
  forall evs, exists a,
    let n := Run (evs ++ EvCrash :: concat (repeat [EvRecv; EvExec no_fault; EvEpoch] (length G))) in
    n_up n = true /\ Chain (length G) (n_db n) a.
Proof.
  intros HG WF EV Ev Gs Ld evs.
  destruct (catches_up recover tx_gas transact root_call hist_call close_call entry stroot txroot rcroot hash lenient G HG g
    evs WF (meaningful _ _ _ _ _ _ _ _ _ _ _ _ g EV WF Ev Gs Ld)) as (Hup & _ & _ & _ & _ & a & prev & H & _).
  exists a. split; [exact Hup|exact H].
Qed.

(* No transaction is included twice, in one batch, in duplicate batches or across restarts, as long as a
   transaction that was executed once is invalid afterwards (its nonce is used). *)
Theorem C51_no_transaction_twice : committed G lenient -> forall spent,
  nonces transact root_call hist_call close_call spent ->
  forall evs, exists body, n_db (Run evs) = body ++ [g] /\ NoDup (flat_map b_txs body).
Proof.
  intros HG spent HN evs. destruct (C51_stored_chain_is_the_committed_one HG evs) as (k & a & H).
  destruct (chain_once _ _ _ _ _ _ _ _ _ _ _ _ spent HN _ _ _ _ H) as (body & b & t & E & _ & X & _). eauto.
Qed.
End C51.

(* Re-executing a produced block from its sealed header and body gives the same block: the environment and
   the context rebuilt from the header are the ones it was produced with. *)
Theorem C51_reexecution_reproduces : forall (state tx : Type) recover tx_gas transact root_call hist_call close_call stroot txroot rcroot hash
  (enc : tx -> N) o i closes addr bd fee limit mix worker raw acc (prev b : block state tx),
  is_block recover tx_gas transact root_call hist_call close_call stroot txroot rcroot hash
    o i closes addr bd fee limit mix worker raw acc prev b ->
  worker < 2 ^ 16 -> (forall t, In t (b_txs b) -> recover (enc t) = Some t) ->
  run_block state tx recover tx_gas transact root_call hist_call close_call stroot txroot rcroot
    (env_replay (b_hdr b)) (ctx_replay (b_hdr b)) acc (map enc (b_txs b)) (b_state prev) = Some b.
Proof. intros. eapply replay_block; eassumption. Qed.

(* Persisting is tried at most three times, stores all blocks of the output or none, and a fault after the
   static files were written is final: no retry can succeed. *)
Theorem C51_persist_all_or_nothing : forall (state tx : Type) fs (db blocks : list (block state tx)) db1 sf1 ok,
  blocks <> [] -> persist_retry state tx 2 fs db (length db) blocks = (db1, sf1, ok) ->
  if ok then db1 = blocks ++ db else db1 = db.
Proof.
  intros state tx fs db blocks db1 sf1 ok Hn H. apply persist_spec in H; [|exact Hn]. destruct ok; [apply H|exact H].
Qed.
Theorem C51_third_attempt_is_the_last : forall (state tx : Type) f1 f2 f3 rest (db blocks : list (block state tx)),
  persist_retry state tx 2 (f1 :: f2 :: f3 :: rest) db (length db) blocks =
  persist_retry state tx 2 [f1; f2; f3] db (length db) blocks.
Proof.
  intros. cbn [persist_retry hd tl]. unfold persist_once.
  destruct f1; cbn; rewrite ?Nat.eqb_refl; try reflexivity; destruct f2; cbn; rewrite ?Nat.eqb_refl; try reflexivity;
  destruct (Nat.eqb _ _); try reflexivity; destruct f3; cbn; rewrite ?Nat.eqb_refl; reflexivity.
Qed.
(* REFUTED as a claim about recovery: the retry exists for node-local provider faults, but after a fault
   behind the static-file append every retry hits the append check. *)
Theorem C51_refuted_late_fault_not_retryable : forall (state tx : Type) fs (db blocks : list (block state tx)),
  blocks <> [] -> snd (persist_retry state tx 2 (PLate :: fs) db (length db) blocks) = false.
Proof.
  intros state tx fs db blocks Hn. cbn [persist_retry hd tl]. unfold persist_once. rewrite Nat.eqb_refl.
  assert (Z : Nat.eqb (length db + length blocks) (length db) = false).
  { apply Nat.eqb_neq. destruct blocks; [congruence|cbn; lia]. }
  rewrite Z. destruct (hd PNone fs); cbn [snd]; try reflexivity.
  rewrite Z. destruct (hd PNone (tl fs)); reflexivity.
Qed.

(* ---- a small concrete network ---- *)
Definition t_recover (b : N) : option N := if b <? 900 then Some b else None.
Definition t_gas (t : N) : N := if t =? 99 then 40000000 else 21000.
Definition t_tx (e : benv) (st : list N) (t : N) : tres (list N) :=
  if memN t st then TInvalid else TDone (t :: st) 21000 (t + e_fee e).
Definition t_root (e : benv) (d : N) (st : list N) : option (list N) := Some (10000 + d :: st).
Definition t_hist (e : benv) (d : N) (st : list N) : option (list N) := Some (20000 + d :: st).
Definition t_close (e : benv) (n s : N) (r : list (N * N)) (sl : list slot) (w u : N) (st : list N) : option (list N) :=
  Some (30000 + s :: st).
Definition t_cm : committee := {| cm_epoch := 0; cm_auths := []; cm_by_id := [(1, mkAuthority 1 1 11); (2, mkAuthority 2 2 12)];
  cm_quorum := 2; cm_validity := 1 |}.
Definition t_entry (st : list N) : list slot * option committee := ([slot0; slot0], Some t_cm).
Definition t_sum (l : list N) : N := fold_left N.add l 0.
Definition t_hash (h : header) : N := 7 * h_number h + 1000.
Definition mkb (txs : list N) (w fee : N) : xbatch := {| xb_txs := txs; xb_worker := w; xb_fee := fee |}.
Definition mko (num e r ld : N) (cl : bool) (certs : list (N * list xbatch)) (ds : list N) : xout :=
  {| xo_num := num; xo_digest := 100 + num; xo_epoch := e; xo_round := r; xo_leader := ld; xo_time := 5 * num; xo_seed := 77 + num;
     xo_close := cl; xo_certs := certs; xo_digests := ds |}.
Definition t_G : list xout :=
  [ mko 1 0 2 1 false [] [];
    mko 2 0 4 2 false [(11, [mkb [5; 6; 950] 0 7; mkb [6; 8] 1 9]); (12, []); (12, [mkb [9] 0 7])] [501; 502; 503];
    mko 3 0 6 1 false [] [];
    mko 4 0 8 2 true [(12, [mkb [10] 1 9])] [504];
    mko 5 1 2 1 false [(11, [mkb [11] 0 8])] [505];
    mko 6 1 4 2 true [] [] ].
Definition t_g : block (list N) N :=
  {| b_hdr := {| h_parent := 0; h_ommers := 0; h_benef := 0; h_stroot := 0; h_txroot := 0; h_rcroot := 0; h_wd := []; h_time := 0;
       h_mix := 0; h_nonce := 0; h_fee := 7; h_number := 0; h_limit := 30000000; h_diff := 0; h_used := 0; h_extra := None; h_beacon := 0 |};
     b_txs := []; b_state := [] |}.
Definition t_run (G : list xout) : list xev -> node (list N) N :=
  xrun (list N) N t_recover t_gas t_tx t_root t_hist t_close t_entry t_sum t_sum t_sum t_hash (fun _ => false) G t_g.
Notation TChain := (chain t_recover t_gas t_tx t_root t_hist t_close t_entry t_sum t_sum t_sum t_hash t_G t_g).

Lemma t_committed : committed t_G (fun _ => false).
Proof.
  split.
  - cbn. repeat (constructor; [cbn; intros Z; repeat (destruct Z as [Z|Z]; [discriminate Z|]); exact Z|]). constructor.
  - intros k o o' H1 H2.
    do 6 (destruct k as [|k]; [cbn in H1, H2; injection H1 as <-; try discriminate H2; injection H2 as <-; cbn; repeat split|]).
    destruct k; discriminate H1.
  - intros o H. cbn in H. repeat (destruct H as [<-|H]; [cbn; repeat split|]). destruct H.
  - intros o a x H Hx. cbn in H.
    repeat (destruct H as [<-|H]; [cbn in Hx; repeat (destruct Hx as [Hx|Hx]; [injection Hx as _ <-; reflexivity|]); destruct Hx|]). destruct H.
  - intros o _ Z. discriminate Z.
Qed.
Definition t_spent (st : list N) (t : N) : Prop := In t st.
Lemma t_nonces : nonces t_tx t_root t_hist t_close t_spent.
Proof.
  unfold t_spent. split.
  - intros e st t st' gas rc H. unfold t_tx in H. destruct (memN t st); [discriminate H|]. injection H as <- _ _. left. reflexivity.
  - intros e st t st' gas rc u H Hu. unfold t_tx in H. destruct (memN t st); [discriminate H|]. injection H as <- _ _. right. exact Hu.
  - intros e st t st' gas rc H. unfold t_tx. rewrite (proj2 (memN_In t st) H). discriminate.
  - intros e d st st' u H Hu. injection H as <-. right. exact Hu.
  - intros e d st st' u H Hu. injection H as <-. right. exact Hu.
  - intros e n s r sl w us st st' u H Hu. injection H as <-. right. exact Hu.
Qed.
Lemma t_evm_ok : evm_ok t_gas t_tx t_root t_hist t_close.
Proof.
  split; try discriminate.
  - intros e st t. unfold t_tx. destruct (memN t st); discriminate.
  - intros e st t st' gas rc H. unfold t_tx in H. destruct (memN t st); [discriminate H|]. injection H as _ <- _.
    unfold t_gas. destruct (t =? 99); [intros Z; discriminate Z|reflexivity].
Qed.
Lemma t_acc k l a : TChain k l a -> length (xa_slots a) = 2%nat /\ xa_cm a = Some t_cm.
Proof.
  intros H. destruct (chain_acc _ _ _ _ _ _ _ _ _ _ _ _ _ t_committed _ _ _ _ H) as (el & s & _ & E & E2 & _).
  rewrite (fold_blocks_length _ _ _ E). split; [reflexivity|]. rewrite E2. reflexivity.
Qed.
Lemma t_workers_fit : workers_fit t_recover t_gas t_tx t_root t_hist t_close t_entry t_sum t_sum t_sum t_hash t_G t_g.
Proof.
  intros k l a o addr x H Ho Hx. destruct (t_acc _ _ _ H) as [-> _]. apply nth_error_In in Ho. cbn in Ho.
  repeat (destruct Ho as [<-|Ho]; [cbn in Hx; repeat (destruct Hx as [Hx|Hx]; [injection Hx as _ <-; cbn; lia|]); destruct Hx|]). destruct Ho.
Qed.
(* the hypotheses of the catch-up theorem hold of it *)
Example C51_example_catches_up : forall evs, exists a,
  let n := t_run t_G (evs ++ EvCrash :: concat (repeat [EvRecv; EvExec no_fault; EvEpoch] 6)) in
  n_up n = true /\ TChain 6%nat (n_db n) a.
Proof.
  apply (C51_restart_catches_up _ _ _ _ _ _ _ _ _ _ _ _ _ _ _ _ t_committed t_workers_fit t_evm_ok).
  - intros o H. cbn in H. repeat (destruct H as [<-|H]; [reflexivity|]). destruct H.
  - intros o addr x H Hx. cbn in H.
    repeat (destruct H as [<-|H]; [cbn in Hx; repeat (destruct Hx as [Hx|Hx]; [injection Hx as _ <-; vm_compute; discriminate|]); destruct Hx|]). destruct H.
  - intros k l a o H Ho. destruct (t_acc _ _ _ H) as [_ E]. unfold authority_address. rewrite E. apply nth_error_In in Ho. cbn in Ho.
    repeat (destruct Ho as [<-|Ho]; [vm_compute; discriminate|]). destruct Ho.
Qed.
Definition summary (n : node (list N) N) : list (N * N * list N * option N * list (N * N) * N) :=
  map (fun b => (h_number (b_hdr b), h_ommers (b_hdr b), b_txs b, h_extra (b_hdr b), h_wd (b_hdr b), h_diff (b_hdr b))) (rev (n_db n)).
Definition rnd : list xev := [EvRecv; EvExec no_fault; EvEpoch].
(* the whole run: duplicate transaction 6 and undecodable 950 are dropped; address 11 led two outputs of
   epoch 0 (both without a block), address 12 led two; the last epoch is closed by an empty block *)
Example C51_example_run : summary (t_run t_G (concat (repeat rnd 6))) =
  [ (0, 0, [], None, [], 0);
    (1, 501, [5; 6], None, [], 0); (2, 502, [8], None, [], 65537); (3, 503, [9], None, [], 131072);
    (4, 504, [10], Some 81, [(11, 2); (12, 2)], 1);
    (5, 505, [11], None, [], 0);
    (6, 0, [], Some 83, [(11, 1); (12, 1)], 0) ].
Proof. vm_compute. reflexivity. Qed.
(* with a failing second block, a crash, a failed announcement and a failed persist in between: same chain *)
Definition bad1 : faults := {| f_build := fun i => Nat.eqb i 1; f_persist := []; f_send := true |}.
Definition bad2 : faults := {| f_build := fun _ => false; f_persist := []; f_send := false |}.
Definition bad3 : faults := {| f_build := fun _ => false; f_persist := [PEarly; PLate]; f_send := true |}.
Definition bad4 : faults := {| f_build := fun _ => false; f_persist := [PEarly; PEarly]; f_send := true |}.
Example C51_example_faulty_run :
  n_db (t_run t_G ([EvRecv; EvRecv; EvRecv; EvExec no_fault; EvExec bad1; EvCrash; EvRecv; EvRecv; EvExec no_fault; EvExec bad2;
    EvCrash; EvRecv; EvRecv; EvExec no_fault; EvExec bad3; EvCrash] ++ concat (repeat rnd 2) ++ [EvRecv; EvExec bad4] ++ rnd)) =
  n_db (t_run t_G (concat (repeat rnd 6))).
Proof. vm_compute. reflexivity. Qed.

(* ---- refuted ---- *)
(* A batch whose transactions ask for more gas than a block has halts every node for good: execution relies
   on the worker's validation (C46) alone. *)
Example C51_refuted_unvalidated_gas_halts : forall evs,
  let G := [mko 1 0 2 1 false [(11, [mkb [99] 0 7])] [501]] in
  n_db (t_run G evs) = [t_g].
Proof.
  intros evs G. unfold t_run, xrun.
  assert (X : forall l n, n_db n = [t_g] -> (n_queue n = [] \/ n_queue n = G) -> n_parent n = b_hdr t_g -> n_mem n = [] -> (n_next n <= 1)%nat ->
    (n_queue n = G -> n_next n = 1%nat) ->
    n_db (fold_left (xstep (list N) N t_recover t_gas t_tx t_root t_hist t_close t_entry t_sum t_sum t_sum t_hash (fun _ => false) G t_g) l n) = [t_g]).
  { induction l as [|e l IH]; intros n H1 H2 H3 H4 H5 H6; [exact H1|]. cbn [fold_left].
    destruct n as [db sf mem hd fin acc qu par nx wt up sent]. cbn in H1, H2, H3, H4, H5, H6. subst db par mem.
    destruct e as [|f| |].
    - apply IH.
      + cbn [xstep n_up n_wait n_queue n_next]. destruct (_ && _ && _); [|reflexivity]. destruct (nth_error G nx); reflexivity.
      + cbn [xstep n_up n_wait n_queue n_next]. destruct (_ && _ && _); [|exact H2]. destruct nx as [|nx].
        * cbn [nth_error G with_queue n_queue]. destruct H2 as [->| ->]; [right; reflexivity|specialize (H6 eq_refl); discriminate H6].
        * assert (nx = 0)%nat as -> by lia. exact H2.
      + cbn [xstep n_up n_wait n_queue n_next]. destruct (_ && _ && _); [|reflexivity]. destruct (nth_error G nx); reflexivity.
      + cbn [xstep n_up n_wait n_queue n_next]. destruct (_ && _ && _); [|reflexivity]. destruct (nth_error G nx); reflexivity.
      + cbn [xstep n_up n_wait n_queue n_next]. destruct (_ && _ && _); [|exact H5]. destruct nx as [|nx]; [cbn; lia|].
        assert (nx = 0)%nat as -> by lia. exact H5.
      + cbn [xstep n_up n_wait n_queue n_next]. destruct (_ && _ && _); [|exact H6]. destruct nx as [|nx]; [reflexivity|].
        assert (nx = 0)%nat as -> by lia. exact H6.
    - cbn [xstep n_up n_queue]. destruct up; [|apply IH; auto].
      destruct H2 as [->| ->]; [apply IH; auto|]. specialize (H6 eq_refl). subst nx.
      assert (D : forall b, execute (list N) N t_recover t_gas t_tx t_root t_hist t_close t_sum t_sum t_sum t_hash (fun _ => false) f
        (mko 1 0 2 1 false [(11, [mkb [99] 0 7])] [501])
        (Build_node (list N) N [t_g] sf [] hd fin acc [] (b_hdr t_g) 1 wt b sent) =
        Build_node (list N) N [t_g] sf [] (b_hdr t_g) fin (count_leader 1 acc) [] (b_hdr t_g) 1 wt false sent).
      { intros b. destruct f as [fb fp fs]. unfold execute. cbn -[exec_payload]. unfold exec_payload. cbn [f_build f_persist].
        destruct (fb 0%nat); reflexivity. }
      cbn [with_queue n_db n_sf n_mem n_head n_final n_acc n_queue n_parent n_next n_wait n_up n_sent G]. 
      unfold with_queue. cbn [n_db n_sf n_mem n_head n_final n_acc n_queue n_parent n_next n_wait n_up n_sent]. rewrite D.
      apply IH; cbn; auto.
    - cbn [xstep n_queue n_db]. destruct H2 as [->| ->]; [|apply IH; cbn; auto]. cbn [n_up n_wait]. destruct (up && wt); apply IH; cbn; auto.
    - apply IH; cbn; auto; try lia; try discriminate. }
  apply X; cbn; auto; try lia; try discriminate.
Qed.
(* A node that fails to announce an output keeps it: the finalized block it shows lags its head until the
   next start. *)
Example C51_refuted_finalized_is_head :
  let n := t_run t_G [EvRecv; EvRecv; EvExec no_fault; EvExec bad2] in
  h_number (n_head n) = 3 /\ h_number (n_final n) = 0 /\ length (n_db n) = 4%nat.
Proof. vm_compute. repeat split. Qed.
(* A batch naming a worker the epoch does not have panics the engine after the block became the visible
   head, and no rollback runs. *)
Example C51_refuted_head_durable_without_worker_range :
  let n := t_run [mko 1 0 2 1 false [(11, [mkb [5] 7 7])] [501]] [EvRecv; EvExec no_fault] in
  n_up n = false /\ h_number (n_head n) = 1 /\ n_db n = [t_g].
Proof. vm_compute. repeat split. Qed.
(* If nothing in it used gas the block is stored, and every later start fails: the rebuild checks the worker
   of all blocks, the live path only of those that used gas. *)
Example C51_refuted_restart_after_empty_block :
  let G := [mko 1 0 2 1 false [(11, [mkb [950] 7 7])] [501]] in
  n_up (t_run G [EvRecv; EvExec no_fault]) = true /\
  n_up (t_run G [EvRecv; EvExec no_fault; EvCrash]) = false.
Proof. vm_compute. split; reflexivity. Qed.
(* In the epochs that tolerate more digests than batches, an uneven closing output never closes its epoch. *)
Example C51_refuted_lenient_epoch_closes :
  let G := [mko 1 0 2 1 true [(11, [mkb [5] 0 7])] [501; 501]] in
  let n := xrun (list N) N t_recover t_gas t_tx t_root t_hist t_close t_entry t_sum t_sum t_sum t_hash (fun _ => true) G t_g rnd in
  n_up n = true /\ map (fun b => h_extra (b_hdr b)) (n_db n) = [None; None].
Proof. vm_compute. split; reflexivity. Qed.
