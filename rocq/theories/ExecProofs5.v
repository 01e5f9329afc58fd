(* C51, part 5: consequences read off the chain. *)
From Verif Require Import Util Types CommitteeModel GasModel GasProofs ExecModel ExecSpec ExecProofs ExecProofs2 ExecProofs3 ExecProofs4.
Local Open Scope N_scope.

Section Conseq.
Context {state tx : Type}.
Variable recover : N -> option tx.
Variable tx_gas : tx -> N.
Variable transact : benv -> state -> tx -> tres state.
Variable root_call : benv -> N -> state -> option state.
Variable hist_call : benv -> N -> state -> option state.
Variable close_call : benv -> N -> N -> list (N * N) -> list slot -> N -> N -> state -> option state.
Variable entry : state -> list slot * option committee.
Variable stroot : state -> N.
Variable txroot : list tx -> N.
Variable rcroot : list N -> N.
Variable hash : header -> N.
Notation blk := (block state tx).
Notation Executed := (executed recover tx_gas transact).
Notation IsBlock := (is_block recover tx_gas transact root_call hist_call close_call stroot txroot rcroot hash).
Notation BatchBlocks := (batch_blocks recover tx_gas transact root_call hist_call close_call stroot txroot rcroot hash).
Notation OutputBlocks := (output_blocks recover tx_gas transact root_call hist_call close_call stroot txroot rcroot hash).
Notation RunBlock := (run_block state tx recover tx_gas transact root_call hist_call close_call stroot txroot rcroot).

(* the batch digests an output's blocks carry *)
Definition expected_ommers (o : xout) : list N :=
  match batches_of o with [] => if xo_close o then [0] else [] | _ => xo_digests o end.

Lemma batch_blocks_ommers o i bs ds acc prev new a : BatchBlocks o i bs ds acc prev new a ->
  map (fun b => h_ommers (b_hdr b)) new = ds /\ Forall (fun b => h_beacon (b_hdr b) = xo_digest o) new.
Proof.
  intros H. induction H as [i acc prev|i addr x bs bd ds acc prev b l sl acc' HB HI H IH]; [split; [reflexivity|constructor]|].
  destruct IH as [I1 I2]. destruct HB as (? & ? & ? & ? & ? & _ & _ & _ & _ & E).
  split; [cbn [map]; rewrite E, I1; reflexivity|]. constructor; [rewrite E; reflexivity|exact I2].
Qed.
Lemma output_ommers o acc prev new a : OutputBlocks o acc prev new a ->
  map (fun b => h_ommers (b_hdr b)) new = expected_ommers o /\ Forall (fun b => h_beacon (b_hdr b) = xo_digest o) new.
Proof.
  unfold output_blocks, expected_ommers. destruct (batches_of o).
  - intros [_ H]. destruct (xo_close o); [|subst; split; [reflexivity|constructor]].
    destruct H as (be & b & _ & -> & HB). destruct HB as (? & ? & ? & ? & ? & _ & _ & _ & _ & E).
    cbn. rewrite E. split; [reflexivity|]. constructor; [rewrite E; reflexivity|constructor].
  - apply batch_blocks_ommers.
Qed.
Lemma filter_all {A} (p : A -> bool) l : (forall x, In x l -> p x = true) -> filter p l = l.
Proof.
  induction l as [|x l IH]; intros H; [reflexivity|]. cbn. rewrite (H x (or_introl eq_refl)). f_equal. apply IH.
  intros y Hy. apply H. right. exact Hy.
Qed.

Section WithG.
Variable G : list xout.
Notation Chain := (chain recover tx_gas transact root_call hist_call close_call entry stroot txroot rcroot hash G).

Lemma chain_digests g k l a : NoDup (map xo_digest G) -> Chain g k l a ->
  exists body, l = body ++ [g] /\
  forall j o, nth_error G j = Some o ->
    map (fun b => h_ommers (b_hdr b)) (rev (filter (fun b => h_beacon (b_hdr b) =? xo_digest o) body)) =
    if (j <? k)%nat then expected_ommers o else [].
Proof.
  intros ND H. induction H as [|k prev l acc o new acc' H IH Ho Hb].
  - exists []. split; [reflexivity|]. intros j o _. destruct j; reflexivity.
  - destruct IH as (body & E & IH). exists (rev new ++ body). rewrite E, app_assoc. split; [reflexivity|].
    intros j p Hp. rewrite filter_app, rev_app_distr, map_app, (IH j p Hp).
    destruct (output_ommers _ _ _ _ _ Hb) as (O1 & O2). rewrite Forall_forall in O2.
    destruct (Nat.eq_dec j k) as [->|Hn].
    + rewrite Ho in Hp. injection Hp as <-. rewrite Nat.ltb_irrefl, (proj2 (Nat.ltb_lt k (S k)) (Nat.lt_succ_diag_r k)).
      rewrite filter_all, rev_involutive; [exact O1|]. intros b Hin. apply N.eqb_eq, O2, in_rev, Hin.
    + rewrite (filter_nil (fun b => h_beacon (b_hdr b) =? xo_digest p) (rev new)).
      * rewrite app_nil_r. destruct (Nat.ltb_spec j k), (Nat.ltb_spec j (S k)); try reflexivity; exfalso; clear -Hn H0 H1; lia.
      * intros b Hin. apply N.eqb_neq. apply in_rev in Hin. rewrite (O2 b Hin). intros Ed.
        apply Hn. symmetry. rewrite NoDup_nth_error in ND. apply ND.
        -- rewrite map_length. apply nth_error_Some. congruence.
        -- rewrite !nth_error_map, Ho, Hp. cbn. rewrite Ed. reflexivity.
Qed.

(* ---- no transaction twice ---- *)
Record nonces (spent : state -> tx -> Prop) : Prop := {
  nc_spends : forall e st t st' gas rc, transact e st t = TDone st' gas rc -> spent st' t;
  nc_keeps : forall e st t st' gas rc u, transact e st t = TDone st' gas rc -> spent st u -> spent st' u;
  nc_rejects : forall e st t st' gas rc, spent st t -> transact e st t <> TDone st' gas rc;
  nc_root : forall e d st st' u, root_call e d st = Some st' -> spent st u -> spent st' u;
  nc_hist : forall e d st st' u, hist_call e d st = Some st' -> spent st u -> spent st' u;
  nc_close : forall e n s r sl w us st st' u, close_call e n s r sl w us st = Some st' -> spent st u -> spent st' u }.
Section Once.
Variable spent : state -> tx -> Prop.
Hypothesis HN : nonces spent.
Lemma executed_once e raw used st used' st' ts rc : Executed e raw used st used' st' ts rc ->
  (forall u, spent st u -> spent st' u) /\ (forall u, In u ts -> spent st' u /\ ~ spent st u) /\ NoDup ts.
Proof.
  intros H. induction H as
    [used st|b r used st used' st' ts rc R H IH|b t r used st used' st' ts rc R L T H IH|
     b t r used st g x st1 used' st' ts rc R L T H IH]; auto.
  - split; [auto|]. split; [intros u []|constructor].
  - destruct IH as (I1 & I2 & I3). pose proof (nc_spends _ HN _ _ _ _ _ _ T) as Sp.
    split; [intros u Hu; apply I1; eapply nc_keeps; eassumption|]. split.
    + intros u [<-|Hu].
      * split; [apply I1; exact Sp|]. intros Z. exact (nc_rejects _ HN _ _ _ _ _ _ Z T).
      * destruct (I2 u Hu) as [J1 J2]. split; [exact J1|]. intros Z. apply J2. eapply nc_keeps; eassumption.
    + constructor; [|exact I3]. intros Z. apply (proj2 (I2 t Z)). exact Sp.
Qed.
Lemma is_block_once o i cl addr bd fee limit mix worker raw acc (prev b : blk) :
  IsBlock o i cl addr bd fee limit mix worker raw acc prev b ->
  (forall u, spent (b_state prev) u -> spent (b_state b) u) /\
  (forall u, In u (b_txs b) -> spent (b_state b) u /\ ~ spent (b_state prev) u) /\ NoDup (b_txs b).
Proof.
  intros (s1 & s2 & s3 & rc & used & A1 & A2 & A3 & A4 & _).
  assert (K1 : forall u, spent (b_state prev) u -> spent s1 u).
  { intros u Hu. destruct i; [eapply nc_root; eassumption|subst; exact Hu]. }
  assert (K2 : forall u, spent (b_state prev) u -> spent s2 u) by (intros u Hu; eapply nc_hist; eauto).
  destruct (executed_once _ _ _ _ _ _ _ _ A3) as (I1 & I2 & I3).
  assert (K4 : forall u, spent s3 u -> spent (b_state b) u).
  { intros u Hu. destruct cl; [eapply nc_close; eassumption|rewrite A4; exact Hu]. }
  split; [auto|]. split; [|exact I3]. intros u Hu. destruct (I2 u Hu). split; auto.
Qed.
Definition fresh (prev : blk) (new : list blk) : Prop :=
  (forall u, spent (b_state prev) u -> spent (b_state (last new prev)) u) /\
  (forall u, In u (flat_map b_txs new) -> spent (b_state (last new prev)) u /\ ~ spent (b_state prev) u) /\
  NoDup (flat_map b_txs new).
Lemma batch_blocks_once o i bs ds acc prev new a : BatchBlocks o i bs ds acc prev new a -> fresh prev new.
Proof.
  intros H. induction H as [i acc prev|i addr x bs bd ds acc prev b l sl acc' HB HI H (I1 & I2 & I3)].
  - split; [auto|]. split; [intros u []|constructor].
  - destruct (is_block_once _ _ _ _ _ _ _ _ _ _ _ _ _ HB) as (J1 & J2 & J3). unfold fresh. rewrite last_cons.
    split; [auto|]. cbn [flat_map]. split.
    + intros u Hu. apply in_app_or in Hu as [Hu|Hu].
      * destruct (J2 u Hu). auto.
      * destruct (I2 u Hu). split; auto.
    + apply NoDup_app_intro; auto. intros u Hu Hv. destruct (J2 u Hu), (I2 u Hv). contradiction.
Qed.
Lemma output_once o acc prev new a : OutputBlocks o acc prev new a -> fresh prev new.
Proof.
  unfold output_blocks. destruct (batches_of o).
  - intros [_ H]. destruct (xo_close o).
    + destruct H as (be & b & _ & -> & HB). destruct (is_block_once _ _ _ _ _ _ _ _ _ _ _ _ _ HB) as (J1 & J2 & J3).
      unfold fresh. cbn [last flat_map]. rewrite app_nil_r. auto.
    + subst. split; [auto|]. split; [intros u []|constructor].
  - apply batch_blocks_once.
Qed.
Lemma chain_once g k l a : Chain g k l a ->
  exists body b t, l = body ++ [g] /\ l = b :: t /\ NoDup (flat_map b_txs body) /\
    forall u, In u (flat_map b_txs body) -> spent (b_state b) u.
Proof.
  intros H. induction H as [|k prev l acc o new acc' H IH Ho Hb].
  - exists [], g, []. repeat split; [constructor|intros u []].
  - destruct IH as (body & b & t & E1 & E2 & I1 & I2). injection E2 as <- <-.
    destruct (output_once _ _ _ _ _ Hb) as (F1 & F2 & F3).
    destruct (last_app_rev new prev l) as (t' & Et).
    exists (rev new ++ body), (last new prev), t'. split; [rewrite E1, app_assoc; reflexivity|].
    split; [exact Et|]. rewrite flat_map_app.
    assert (P : forall u, In u (flat_map b_txs (rev new)) <-> In u (flat_map b_txs new)).
    { intros u. rewrite !in_flat_map. split; intros (x & Hx & Hu); exists x; (split; [|exact Hu]); [apply in_rev; exact Hx|apply -> in_rev; exact Hx]. }
    split.
    + apply NoDup_app_intro.
      * eapply Permutation_NoDup; [|exact F3]. apply Permutation_flat_map. apply Permutation_rev.
      * exact I1.
      * intros u Hu Hv. apply P in Hu. destruct (F2 u Hu) as [_ Z]. apply Z, I2, Hv.
    + intros u Hu. apply in_app_or in Hu as [Hu|Hu]; [apply P in Hu; apply (F2 u Hu)|apply F1, I2, Hu].
Qed.
End Once.

(* ---- re-execution ---- *)
Lemma executed_replay (enc : tx -> N) e raw used st used' st' ts rc :
  Executed e raw used st used' st' ts rc -> (forall t, In t ts -> recover (enc t) = Some t) ->
  Executed e (map enc ts) used st used' st' ts rc.
Proof.
  intros H. induction H as
    [used st|b r used st used' st' ts rc R H IH|b t r used st used' st' ts rc R L T H IH|
     b t r used st g x st1 used' st' ts rc R L T H IH]; intros He; auto; [constructor|].
  cbn [map]. eapply ex_included; eauto.
  - apply He. left. reflexivity.
  - apply IH. intros u Hu. apply He. right. exact Hu.
Qed.
Lemma replay_block (enc : tx -> N) o i cl addr bd fee limit mix worker raw acc (prev b : blk) :
  IsBlock o i cl addr bd fee limit mix worker raw acc prev b ->
  worker < 2 ^ 16 -> (forall t, In t (b_txs b) -> recover (enc t) = Some t) ->
  RunBlock (env_replay (b_hdr b)) (ctx_replay (b_hdr b)) acc (map enc (b_txs b)) (b_state prev) = Some b.
Proof.
  intros (s1 & s2 & s3 & rc & used & A1 & A2 & A3 & A4 & E) Hw He.
  assert (Ee : env_replay (b_hdr b) = {| e_number := h_number (b_hdr prev) + 1; e_benef := addr; e_time := xo_time o; e_mix := mix;
              e_limit := limit; e_fee := fee |}) by (rewrite E; reflexivity).
  unfold run_block. rewrite Ee. set (e := {| e_number := _ |}) in *.
  assert (Ec : ctx_replay (b_hdr b) = {| c_parent := hash (b_hdr prev); c_beacon := xo_digest o;
     c_nonce := xo_epoch o * 2 ^ 32 + xo_round o; c_ommers := bd; c_close := if cl then Some (xo_seed o) else None;
     c_diff := N.of_nat i * 2 ^ 16 + worker |}) by (rewrite E; reflexivity).
  rewrite Ec. cbn [c_parent c_beacon c_nonce c_ommers c_close c_diff].
  assert (A1' : (if first_batch (N.of_nat i * 2 ^ 16 + worker) then root_call e (xo_digest o) (b_state prev) else Some (b_state prev)) = Some s1).
  { unfold first_batch. destruct i.
    - rewrite (proj2 (N.ltb_lt _ _)); [exact A1|]. clear -Hw. lia.
    - rewrite (proj2 (N.ltb_ge _ _)); [congruence|]. clear. lia. }
  rewrite A1', A2. rewrite (exec_txs_complete _ _ _ _ _ _ _ _ _ _ _ (executed_replay enc _ _ _ _ _ _ _ _ A3 He)). cbn [rev app].
  rewrite worker_id_of_low, (N.add_comm _ worker), N.mod_add by discriminate. rewrite (N.mod_small _ _ Hw).
  rewrite (N.add_comm worker).
  destruct b as [bh bt bs]. cbn [b_hdr b_txs b_state] in *. subst bh.
  destruct cl; [rewrite A4|subst bs]; reflexivity.
Qed.

(* ---- when every output has a meaning ---- *)
Record evm_ok : Prop := {
  ev_root : forall e d st, root_call e d st <> None;
  ev_hist : forall e d st, hist_call e d st <> None;
  ev_close : forall e n s r sl w us st, close_call e n s r sl w us st <> None;
  ev_fatal : forall e st t, transact e st t <> TFatal;
  ev_gas : forall e st t st' gas rc, transact e st t = TDone st' gas rc -> gas <= tx_gas t }.
Fixpoint batch_gas (raw : list N) : N :=
  match raw with [] => 0 | b :: r => match recover b with Some t => tx_gas t | None => 0 end + batch_gas r end.
Lemma executed_total e raw : evm_ok -> forall used st, used + batch_gas raw <= e_limit e ->
  exists used' st' ts rc, Executed e raw used st used' st' ts rc.
Proof.
  intros EV. induction raw as [|b r IH]; intros used st L; [eexists _, _, _, _; constructor|].
  cbn [batch_gas] in L. destruct (recover b) as [t|] eqn:R.
  - destruct (transact e st t) as [st1 g x| |] eqn:T.
    + pose proof (ev_gas EV _ _ _ _ _ _ T) as Lg. destruct (IH (used + g) st1) as (u' & s' & ts & rc & X); [clear -L Lg; lia|].
      eexists _, _, _, _. eapply ex_included; eauto. clear -L. lia.
    + destruct (IH used st) as (u' & s' & ts & rc & X); [clear -L; lia|].
      eexists _, _, _, _. eapply ex_invalid; eauto. clear -L. lia.
    + destruct (ev_fatal EV _ _ _ T).
  - destruct (IH used st) as (u' & s' & ts & rc & X); [clear -L; lia|].
    eexists _, _, _, _. eapply ex_undecodable; eauto.
Qed.
Lemma is_block_total o i cl addr bd fee limit mix worker raw acc (prev : blk) : evm_ok -> batch_gas raw <= limit ->
  exists b, IsBlock o i cl addr bd fee limit mix worker raw acc prev b.
Proof.
  intros EV L. unfold is_block. set (e := {| e_number := _ |}).
  assert (exists s1, match i with O => root_call e (xo_digest o) (b_state prev) = Some s1 | S _ => s1 = b_state prev end) as (s1 & A1).
  { destruct i; [|eauto]. destruct (root_call e (xo_digest o) (b_state prev)) eqn:R; [eauto|destruct (ev_root EV _ _ _ R)]. }
  destruct (hist_call e (hash (b_hdr prev)) s1) as [s2|] eqn:A2; [|destruct (ev_hist EV _ _ _ A2)].
  destruct (executed_total e raw EV 0 s2) as (used & s3 & ts & rc & A3); [exact L|].
  destruct cl.
  - destruct (close_call e (xo_epoch o * 2 ^ 32 + xo_round o) (xo_seed o) (rewards acc) (xa_slots acc) worker used s3) as [s4|] eqn:A4;
      [|destruct (ev_close EV _ _ _ _ _ _ _ _ A4)].
    eexists (Build_block state tx _ ts s4), s1, s2, s3, rc, used. cbn [b_hdr b_txs b_state]. repeat split; eauto.
  - eexists (Build_block state tx _ ts s3), s1, s2, s3, rc, used. cbn [b_hdr b_txs b_state]. repeat split; eauto.
Qed.
Lemma batch_blocks_total o : evm_ok -> forall bs ds i acc (prev : blk), length bs = length ds ->
  (forall addr x, In (addr, x) bs -> batch_gas (xb_txs x) <= 30000000 /\ (N.to_nat (xb_worker x) < length (xa_slots acc))%nat) ->
  exists new a, BatchBlocks o i bs ds acc prev new a.
Proof.
  intros EV. induction bs as [|[addr x] bs IH]; intros ds i acc prev El Hb.
  - destruct ds; [|discriminate El]. eexists _, _. constructor.
  - destruct ds as [|bd ds]; [discriminate El|]. injection El as El.
    destruct (Hb addr x (or_introl eq_refl)) as (H1 & H2).
    destruct (is_block_total o i (xo_close o && match bs with [] => true | _ => false end) addr bd (xb_fee x) 30000000
      (N.lxor (xo_digest o) bd) (xb_worker x) (xb_txs x) acc prev EV H1) as (b & HB).
    destruct (inc_block (xa_slots acc) (N.to_nat (xb_worker x)) (h_used (b_hdr b)) 30000000) as [sl|] eqn:Ei.
    + destruct (IH ds (S i) (with_slots sl acc) b El) as (new & a & X).
      { intros addr' x' Hx. destruct (Hb addr' x' (or_intror Hx)) as (J1 & J2). split; [exact J1|].
        cbn. rewrite (inc_block_length _ _ _ _ _ Ei). exact J2. }
      eexists _, _. econstructor; eauto.
    + exfalso. unfold inc_block in Ei. destruct (_ =? 0); [discriminate Ei|].
      rewrite (proj2 (Nat.ltb_lt _ _) H2) in Ei. discriminate Ei.
Qed.
Lemma meaningful g : evm_ok ->
  workers_fit recover tx_gas transact root_call hist_call close_call entry stroot txroot rcroot hash G g ->
  (forall o, In o G -> length (batches_of o) = length (xo_digests o)) ->
  (forall o addr x, In o G -> In (addr, x) (batches_of o) -> batch_gas (xb_txs x) <= 30000000) ->
  (forall k l a o, Chain g k l a -> nth_error G k = Some o -> authority_address a (xo_leader o) <> None) ->
  all_meaningful recover tx_gas transact root_call hist_call close_call entry stroot txroot rcroot hash G g.
Proof.
  intros EV WF Ev Gs Ld k prev l a o H Ho. pose proof (nth_error_In _ _ Ho) as Hin. split; [apply Ev; exact Hin|].
  unfold output_blocks. destruct (batches_of o) as [|p bs] eqn:Eb.
  - destruct (xo_close o) eqn:Hc; [|eauto].
    pose proof (Ld _ _ _ _ H Ho) as Z. destruct (authority_address a (xo_leader o)) as [benef|] eqn:Ea; [|congruence].
    destruct (is_block_total o 0 true benef 0 (h_fee (b_hdr prev)) (h_limit (b_hdr prev)) (xo_digest o) 0 []
      (count_leader (xo_leader o) a) prev EV) as (b & HB); [apply N.le_0_l|].
    eexists [b], _. split; [reflexivity|]. exists benef, b. auto.
  - apply (batch_blocks_total o EV).
    + rewrite <- Eb. apply Ev. exact Hin.
    + intros addr x Hx. rewrite <- Eb in Hx. split; [eapply Gs; eassumption|]. exact (WF _ _ _ _ _ _ H Ho Hx).
Qed.
End WithG.
End Conseq.
