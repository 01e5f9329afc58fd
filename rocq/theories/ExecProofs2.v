(* C51, part 2: executing one output, with whatever goes wrong. *)
From Verif Require Import Util Types CommitteeModel GasModel GasProofs ExecModel ExecSpec ExecProofs.
Local Open Scope N_scope.

(* ---- positions and batches ---- *)
Lemma nth_error_app_len {A} (pre : list A) x post : nth_error (pre ++ x :: post) (length pre) = Some x.
Proof. rewrite nth_error_app2 by apply le_n. rewrite Nat.sub_diag. reflexivity. Qed.
Lemma flatten_aux o : forall cs pre, xo_certs o = pre ++ cs ->
  map (batch_at o) (flat_map (fun p => map (pair (fst p)) (seq 0 (length (snd (snd p))))) (combine (seq (length pre) (length cs)) cs)) =
  map Some (flat_map (fun c => map (pair (fst c)) (snd c)) cs).
Proof.
  induction cs as [|[a bs] cs IH]; intros pre E; [reflexivity|].
  cbn [length seq combine flat_map fst snd]. rewrite !map_app. f_equal.
  - rewrite map_map.
    assert (X : forall bs' p1, bs = p1 ++ bs' ->
      map (fun x => batch_at o (length pre, x)) (seq (length p1) (length bs')) = map Some (map (pair a) bs')).
    { induction bs' as [|b bs' IHb]; intros p1 E1; [reflexivity|].
      cbn [length seq map]. f_equal.
      - unfold batch_at. cbn [fst snd]. rewrite E, nth_error_app_len, E1, nth_error_app_len. reflexivity.
      - replace (S (length p1)) with (length (p1 ++ [b])) by (rewrite app_length; cbn [length]; apply Nat.add_1_r).
        apply IHb. rewrite <- app_assoc. exact E1. }
    apply (X bs []). reflexivity.
  - replace (S (length pre)) with (length (pre ++ [(a, bs)])) by (rewrite app_length; cbn [length]; apply Nat.add_1_r).
    apply IH. rewrite <- app_assoc. exact E.
Qed.
Lemma flatten_batches_at o : map (batch_at o) (flatten_batches o) = map Some (batches_of o).
Proof. exact (flatten_aux o (xo_certs o) [] eq_refl). Qed.
Lemma flatten_length o : length (flatten_batches o) = length (batches_of o).
Proof. rewrite <- (map_length (batch_at o)), flatten_batches_at, map_length. reflexivity. Qed.

Lemma closes_at_last o i (ds : list N) : (i + length ds)%nat = length (xo_digests o) -> (0 < length ds)%nat ->
  closes_at o i = xo_close o && match tl ds with [] => true | _ => false end.
Proof.
  intros E L. unfold closes_at, close_epoch_for_last_batch. destruct (xo_close o); [|reflexivity].
  rewrite <- E. destruct ds as [|d [|d' ds]]; cbn [length tl] in *; [lia| |].
  - rewrite (proj2 (Nat.leb_le _ _)) by lia. rewrite orb_true_r. reflexivity.
  - rewrite (proj2 (Nat.leb_gt _ _)) by lia. rewrite (proj2 (Nat.eqb_neq _ _)) by lia. reflexivity.
Qed.

Lemma last_cons {A} (l : list A) : forall b p, last (b :: l) p = last l b.
Proof. induction l as [|x l IH]; intros b p; [reflexivity|]. change (last (x :: l) p = last (x :: l) b). rewrite !IH. reflexivity. Qed.

Section P2.
Context {state tx : Type}.
Variable recover : N -> option tx.
Variable tx_gas : tx -> N.
Variable transact : benv -> state -> tx -> tres state.
Variable root_call : benv -> N -> state -> option state.
Variable hist_call : benv -> N -> state -> option state.
Variable close_call : benv -> N -> N -> list (N * N) -> list slot -> N -> N -> state -> option state.
Variable stroot : state -> N.
Variable txroot : list tx -> N.
Variable rcroot : list N -> N.
Variable hash : header -> N.
Notation blk := (block state tx).
Notation IsBlock := (is_block recover tx_gas transact root_call hist_call close_call stroot txroot rcroot hash).
Notation BatchBlocks := (batch_blocks recover tx_gas transact root_call hist_call close_call stroot txroot rcroot hash).
Notation OutputBlocks := (output_blocks recover tx_gas transact root_call hist_call close_call stroot txroot rcroot hash).
Notation ExecBatches := (exec_batches state tx recover tx_gas transact root_call hist_call close_call stroot txroot rcroot hash).
Notation ExecPayload := (exec_payload state tx recover tx_gas transact root_call hist_call close_call stroot txroot rcroot hash).
(* the builder's view: blocks done on top of the database, [prev] the newest of them *)
Definition wview (db : list blk) (prev : blk) (w : work state tx) : Prop :=
  w_mem w = w_done w /\ w_head w = b_hdr prev /\ w_canon w = b_hdr prev /\ exists t, w_done w ++ db = prev :: t.

Lemma exec_payload_iff fail db prev w o i addr bd fee limit mix worker raw w' :
  small o -> N.of_nat i < 2 ^ 48 -> worker < 2 ^ 16 -> wview db prev w ->
  ExecPayload fail db (mk_payload (w_canon w) addr i bd o fee limit mix worker) raw w = Some w' <->
  fail = false /\ exists b, IsBlock o i (closes_at o i) addr bd fee limit mix worker raw (w_acc w) prev b /\
    w' = {| w_mem := b :: w_mem w; w_head := b_hdr b; w_canon := b_hdr b; w_done := b :: w_done w; w_acc := w_acc w |}.
Proof.
  intros Hs Hi Hw (V1 & V2 & V3 & t & V4). unfold exec_payload. rewrite V3.
  set (y := mk_payload (b_hdr prev) addr i bd o fee limit mix worker).
  change (y_parent y) with (b_hdr prev). rewrite V1, V4. unfold find_block. cbn [find]. rewrite N.eqb_refl.
  destruct fail; [split; [discriminate|intros [A _]; discriminate A]|].
  pose proof (run_is_block recover tx_gas transact root_call hist_call close_call stroot txroot rcroot hash
    o i addr bd fee limit mix worker raw (w_acc w) prev) as R. cbv zeta in R. fold y in R.
  destruct (run_block _ _ _ _ _ _ _ _ _ _ _ _ _ _ _ _) as [b|] eqn:E.
  - split.
    + intros A. injection A as <-. split; [reflexivity|]. exists b. split; [|reflexivity]. apply R; auto.
    + intros (_ & b' & HB & ->). apply R in HB; auto. injection HB as ->. reflexivity.
  - split; [discriminate|]. intros (_ & b' & HB & ->). apply R in HB; auto. discriminate HB.
Qed.

Lemma exec_batches_spec f db o : small o -> forall flat i bs ds w prev,
  map (batch_at o) flat = map Some bs -> skipn i (xo_digests o) = ds -> length bs = length ds ->
  (i + length ds)%nat = length (xo_digests o) ->
  Forall (fun p => xb_worker (snd p) < 2 ^ 16) bs -> wview db prev w ->
  match ExecBatches f db o i flat w with
  | LOk w' => exists l, BatchBlocks o i bs ds (w_acc w) prev l (w_acc w') /\ w_done w' = rev l ++ w_done w /\
                wview db (last l prev) w'
  | LErr w' => exists d p, w_done w' = d ++ w_done w /\ wview db p w'
  | LMissing _ => False
  | LPanic w' => exists x, In x (map snd bs) /\ (length (xa_slots (w_acc w)) <= N.to_nat (xb_worker x))%nat
  end /\
  (forall l a, BatchBlocks o i bs ds (w_acc w) prev l a -> (forall j, f_build f j = false) ->
     exists w', ExecBatches f db o i flat w = LOk w').
Proof.
  intros Hs flat. induction flat as [|p flat IH]; intros i bs ds w prev Ef Ed El Ei Hw V.
  - destruct bs; [|discriminate Ef]. destruct ds; [|discriminate El]. cbn [exec_batches]. split.
    + exists []. split; [constructor|]. split; [reflexivity|exact V].
    + intros; eauto.
  - destruct bs as [|[addr x] bs]; [discriminate Ef|]. destruct ds as [|bd ds]; [discriminate El|].
    cbn [map] in Ef. injection Ef as Ep Ef. injection El as El. inversion Hw as [|? ? Hx Hws]; subst. cbn [snd] in Hx.
    cbn [exec_batches].
    assert (En : nth_error (xo_digests o) i = Some bd).
    { rewrite <- (firstn_skipn i (xo_digests o)), Ed, nth_error_app2; rewrite firstn_length_le.
      - rewrite Nat.sub_diag. reflexivity.
      - lia.
      - lia.
      - lia. }
    rewrite En, Ep.
    assert (Hi : N.of_nat i < 2 ^ 48).
    { destruct Hs as (_ & _ & Hs). cbn [length] in Ei. lia. }
    assert (Ed' : skipn (S i) (xo_digests o) = ds).
    { replace (skipn (S i) (xo_digests o)) with (tl (skipn i (xo_digests o))); [rewrite Ed; reflexivity|].
      clear. revert i. induction (xo_digests o) as [|h t IHt]; intros [|i]; cbn; auto. apply (IHt i). }
    assert (Ei' : (S i + length ds)%nat = length (xo_digests o)) by (cbn [length] in Ei; lia).
    assert (Cl : closes_at o i = xo_close o && match bs with [] => true | _ => false end).
    { rewrite (closes_at_last o i (bd :: ds) Ei) by (cbn; lia). cbn [tl]. f_equal.
      destruct bs, ds; try reflexivity; discriminate El. }
    pose proof (exec_payload_iff (f_build f i) db prev w o i addr bd (xb_fee x) 30000000 (N.lxor (xo_digest o) bd) (xb_worker x) (xb_txs x)) as XP.
    rewrite Cl in XP.
    destruct (ExecPayload _ _ _ _ _) as [w1|] eqn:E1.
    + pose proof (proj1 (XP w1 Hs Hi Hx V) eq_refl) as (Ff & b & HB & ->). cbn [w_acc w_canon w_done w_mem w_head].
      assert (Hl : h_limit (b_hdr b) = 30000000).
      { destruct HB as (? & ? & ? & ? & ? & _ & _ & _ & _ & ->). reflexivity. }
      rewrite Hl.
      destruct (inc_block (xa_slots (w_acc w)) (N.to_nat (xb_worker x)) (h_used (b_hdr b)) 30000000) as [sl|] eqn:Ei1.
      * set (w2 := {| w_mem := b :: w_mem w; w_head := b_hdr b; w_canon := b_hdr b; w_done := b :: w_done w;
                      w_acc := with_slots sl (w_acc w) |}).
        assert (V2 : wview db b w2).
        { destruct V as (V1 & _ & _ & t & V4). unfold wview, w2. cbn. rewrite V1, V4. eauto. }
        destruct (IH (S i) bs ds w2 b Ef Ed' El Ei' Hws V2) as [IH1 IH2]. split.
        -- destruct (ExecBatches f db o (S i) flat w2) as [w'|w'|w'|w'].
           ++ destruct IH1 as (l & B1 & B2 & B3). exists (b :: l). split; [econstructor; eassumption|].
              split; [cbn [rev]; rewrite <- app_assoc; exact B2|]. rewrite last_cons. exact B3.
           ++ destruct IH1 as (d & p' & B1 & B2). exists (d ++ [b]), p'. split; [|exact B2]. rewrite <- app_assoc. exact B1.
           ++ exact IH1.
           ++ destruct IH1 as (x' & Hx' & B1). exists x'. split; [right; exact Hx'|].
              change (xa_slots (w_acc w2)) with sl in B1. rewrite (inc_block_length _ _ _ _ _ Ei1) in B1. exact B1.
        -- intros l a HBB Hf. inversion HBB; subst.
           match goal with X : is_block _ _ _ _ _ _ _ _ _ _ _ _ _ _ _ _ _ _ _ _ _ _ _ |- _ =>
             pose proof (is_block_fun _ _ _ _ _ _ _ _ _ _ _ _ _ _ _ _ _ _ _ _ _ _ _ _ HB X) end. subst.
           assert (sl0 = sl) by congruence. subst. eapply IH2; eassumption.
      * split.
        -- exists x. split; [left; reflexivity|]. unfold inc_block in Ei1. destruct (_ =? 0); [discriminate Ei1|].
           destruct (Nat.ltb_spec (N.to_nat (xb_worker x)) (length (xa_slots (w_acc w)))); [discriminate Ei1|assumption].
        -- intros l a HBB Hf. inversion HBB; subst.
           match goal with X : is_block _ _ _ _ _ _ _ _ _ _ _ _ _ _ _ _ _ _ _ _ _ _ _ |- _ =>
             pose proof (is_block_fun _ _ _ _ _ _ _ _ _ _ _ _ _ _ _ _ _ _ _ _ _ _ _ _ HB X) end. subst. congruence.
    + split; [exists [], prev; split; [reflexivity|exact V]|].
      intros l a HBB Hf. inversion HBB; subst.
      assert (X : None = Some {| w_mem := b :: w_mem w; w_head := b_hdr b; w_canon := b_hdr b; w_done := b :: w_done w; w_acc := w_acc w |}).
      { apply XP; auto. split; [apply Hf|]. exists b. split; [assumption|reflexivity]. }
      discriminate X.
Qed.

(* ---- persisting ---- *)
Lemma persist_wedged k : forall fs (db : list blk) sf blocks, sf <> length db ->
  forall r, persist_retry state tx k fs db sf blocks = r -> r = (db, sf, false).
Proof.
  induction k as [|k IH]; intros fs db sf blocks H r <-; cbn [persist_retry];
    unfold persist_once; rewrite (proj2 (Nat.eqb_neq _ _) H); destruct (hd PNone fs); try reflexivity.
  eapply IH; eauto.
Qed.
Lemma persist_spec k : forall fs (db blocks : list blk) db1 sf1 ok, blocks <> [] ->
  persist_retry state tx k fs db (length db) blocks = (db1, sf1, ok) ->
  if ok then db1 = blocks ++ db /\ sf1 = length db1 else db1 = db.
Proof.
  induction k as [|k IH]; intros fs db blocks db1 sf1 ok Hn; cbn [persist_retry]; unfold persist_once;
    rewrite Nat.eqb_refl; destruct (hd PNone fs); intros E; try (injection E as <- <- <-); auto.
  all: try (split; [reflexivity|]; rewrite app_length; lia).
  - exact (IH _ _ _ _ _ _ Hn E).
  - pose proof (persist_wedged k (tl fs) db (length db + length blocks) blocks) as W.
    assert (length blocks <> 0)%nat by (destruct blocks; [congruence|discriminate]).
    specialize (W ltac:(lia) _ E). injection W as -> -> ->. reflexivity.
Qed.
Lemma persist_clean k fs (db blocks : list blk) : hd PNone fs = PNone ->
  persist_retry state tx k fs db (length db) blocks = (blocks ++ db, (length db + length blocks)%nat, true).
Proof. intros H. destruct k; cbn [persist_retry]; unfold persist_once; rewrite H, Nat.eqb_refl; reflexivity. Qed.

Lemma rollback_all (l : list blk) : rollback state tx hash l l = [].
Proof.
  unfold rollback.
  assert (X : forall a, incl a l -> filter (fun b => negb (existsb (same_hash state tx hash b) l)) a = []).
  { induction a as [|x a IH]; intros I; [reflexivity|]. cbn [filter].
    assert (E : existsb (same_hash state tx hash x) l = true).
    { apply existsb_exists. exists x. split; [apply I; left; reflexivity|]. apply N.eqb_refl. }
    rewrite E. cbn [negb]. apply IH. intros y Hy. apply I. right. exact Hy. }
  apply X. apply incl_refl.
Qed.

(* ---- one output ---- *)
(* what the engine sees of itself between outputs *)
Definition settled (prev : blk) (n : node state tx) : Prop :=
  n_mem n = [] /\ n_head n = b_hdr prev /\ n_parent n = b_hdr prev /\ n_final n = b_hdr prev /\
  n_sf n = length (n_db n) /\ exists t, n_db n = prev :: t.
Definition same_place (n n' : node state tx) : Prop :=
  n_queue n' = n_queue n /\ n_next n' = n_next n /\ n_wait n' = n_wait n.
Definition announced (o : xout) (new : list blk) (prev : blk) : update :=
  (xo_round o, xo_num o, xo_digest o, match new with [] => None | _ => Some (b_hdr (last new prev)) end).

Inductive outcome (o : xout) (prev : blk) (n n' : node state tx) : Prop :=
| oc_done new a' : n_up n' = true -> OutputBlocks o (count_leader (xo_leader o) (n_acc n)) prev new a' ->
    n_db n' = rev new ++ n_db n -> settled (last new prev) n' -> n_acc n' = a' ->
    n_sent n' = n_sent n ++ [announced o new prev] -> outcome o prev n n'
| oc_nothing : n_up n' = false -> n_db n' = n_db n -> n_sent n' = n_sent n ->
    n_mem n' = [] -> n_head n' = n_head n -> outcome o prev n n'
| oc_panic x : n_up n' = false -> n_db n' = n_db n -> n_sent n' = n_sent n ->
    In x (map snd (batches_of o)) -> (length (xa_slots (n_acc n)) <= N.to_nat (xb_worker x))%nat -> outcome o prev n n'
| oc_silent new a' : n_up n' = false -> OutputBlocks o (count_leader (xo_leader o) (n_acc n)) prev new a' ->
    n_db n' = rev new ++ n_db n -> n_sent n' = n_sent n -> n_head n' = b_hdr (last new prev) -> outcome o prev n n'.

Lemma last_app_rev (l : list blk) (prev : blk) t : exists t', rev l ++ prev :: t = last l prev :: t'.
Proof.
  destruct l as [|b l] using rev_ind; [exists t; reflexivity|].
  rewrite rev_app_distr, last_last. cbn. eauto.
Qed.

Lemma linked_le (l : list blk) b : linked hash (b :: l) -> forall c, In c (b :: l) -> h_number (b_hdr c) <= h_number (b_hdr b).
Proof.
  intros L c [<-|Hc]; [reflexivity|]. apply N.lt_le_incl. eapply linked_lower; eassumption.
Qed.

Lemma finish_outcome f o prev n w new a' : settled prev n -> linked hash (n_db n) -> new <> [] ->
  OutputBlocks o (count_leader (xo_leader o) (n_acc n)) prev new a' ->
  w_done w = rev new -> wview (n_db n) (last new prev) w -> w_acc w = a' ->
  outcome o prev n (finish state tx hash f o w n) /\ same_place n (finish state tx hash f o w n).
Proof.
  intros (S1 & S2 & S3 & S4 & S5 & t & S6) Ln Hn HO Ed (V1 & V2 & V3 & _) Ea.
  unfold finish. rewrite S5.
  destruct (persist_retry state tx 2 (f_persist f) (n_db n) (length (n_db n)) (w_done w)) as [[db1 sf1] ok] eqn:EP.
  apply persist_spec in EP; [|rewrite Ed; intros X; apply Hn; rewrite <- (rev_involutive new), X; reflexivity].
  destruct ok; cbn [negb].
  - destruct EP as [-> ->]. destruct (f_send f); cbn [negb].
    + split; [|repeat split]. eapply oc_done with (new := new) (a' := a'); cbn; auto.
      * rewrite Ed. reflexivity.
      * unfold settled. cbn. rewrite V1, V3, Ed.
        assert (F : filter (fun b => h_number (b_hdr (last new prev)) <? h_number (b_hdr b)) (rev new) = []).
        { assert (L2 : linked hash (rev new ++ n_db n)).
          { rewrite S6 in *. eapply output_linked; eassumption. }
          destruct (last_app_rev new prev t) as (t' & Et). rewrite S6 in L2. rewrite Et in L2.
          assert (X : forall c, In c (rev new) -> h_number (b_hdr c) <= h_number (b_hdr (last new prev))).
          { intros c Hc. eapply linked_le; [exact L2|]. rewrite <- Et. apply in_or_app. left. exact Hc. }
          clear -X. induction (rev new) as [|b l IH]; [reflexivity|]. cbn [filter].
          rewrite (proj2 (N.ltb_ge _ _)); [|apply X; left; reflexivity].
          apply IH. intros c Hc. apply X. right. exact Hc. }
        rewrite F, S6, V2. destruct (last_app_rev new prev t) as (t' & Et). rewrite Et. repeat split; eauto.
      * unfold announced. destruct new; [congruence|]. rewrite V3. reflexivity.
    + split; [|repeat split]. eapply oc_silent with (new := new) (a' := a'); cbn; auto.
      rewrite Ed. reflexivity.
  - subst db1. split; [|repeat split]. apply oc_nothing; cbn; auto.
    + rewrite V1. apply rollback_all.
    + congruence.
Qed.

Variable lenient : N -> bool.
Notation Execute := (execute state tx recover tx_gas transact root_call hist_call close_call stroot txroot rcroot hash lenient).
Lemma execute_outcome f o prev n :
  small o -> Forall (fun p => xb_worker (snd p) < 2 ^ 16) (batches_of o) ->
  (lenient (xo_epoch o) = true -> length (batches_of o) = length (xo_digests o)) ->
  settled prev n -> linked hash (n_db n) ->
  outcome o prev n (Execute f o n) /\ same_place n (Execute f o n).
Proof.
  intros Hs Hw Hl S0 Ln. pose proof S0 as (S1 & S2 & S3 & S4 & S5 & t & S6). unfold execute.
  destruct (negb (Nat.eqb (length (flatten_batches o)) (length (xo_digests o))) && negb (lenient (xo_epoch o))) eqn:Ev.
  - split; [|repeat split]. apply oc_nothing; cbn; auto.
  - assert (Even : length (batches_of o) = length (xo_digests o)).
    { rewrite flatten_length in Ev. destruct (Nat.eqb_spec (length (batches_of o)) (length (xo_digests o))) as [E|E]; [exact E|].
      apply Hl. destruct (lenient (xo_epoch o)); [reflexivity|discriminate Ev]. }
    set (w0 := {| w_mem := n_mem n; w_head := n_head n; w_canon := n_parent n; w_done := []; w_acc := count_leader (xo_leader o) (n_acc n) |}).
    assert (V0 : wview (n_db n) prev w0). { unfold wview, w0. cbn. repeat split; eauto. }
    destruct (flatten_batches o) as [|p flat] eqn:Ef.
    + assert (Eb : batches_of o = []).
      { apply length_zero_iff_nil. rewrite <- flatten_length, Ef. reflexivity. }
      destruct (xo_close o) eqn:Ec; cbn [negb].
      * destruct (authority_address (count_leader (xo_leader o) (n_acc n)) (xo_leader o)) as [benef|] eqn:Eau.
        -- pose proof (exec_payload_iff (f_build f 0%nat) (n_db n) prev w0 o 0 benef 0 (h_fee (n_parent n)) (h_limit (n_parent n)) (xo_digest o) 0 []) as XP.
           change (w_canon w0) with (n_parent n) in XP.
           assert (Cl : closes_at o 0 = true).
           { unfold closes_at, close_epoch_for_last_batch. rewrite Ec, <- Even, Eb. reflexivity. }
           rewrite Cl in XP.
           destruct (ExecPayload _ _ _ _ _) as [w|] eqn:E1.
           ++ pose proof (proj1 (XP w Hs ltac:(reflexivity) ltac:(reflexivity) V0) eq_refl) as (_ & b & HB & ->).
              rewrite S3 in HB.
              eapply finish_outcome with (new := [b]) (a' := count_leader (xo_leader o) (n_acc n)); auto.
              ** discriminate.
              ** unfold output_blocks. rewrite Eb, Ec. split; [reflexivity|]. exists benef, b. auto.
              ** unfold wview. cbn. rewrite S1, S6. repeat split; eauto.
           ++ split; [|repeat split]. apply oc_nothing; cbn; auto; [|congruence].
              unfold rollback, w0. cbn. rewrite S1. reflexivity.
        -- split; [|repeat split]. apply oc_nothing; cbn; auto.
      * destruct (f_send f).
        -- split; [|repeat split]. eapply oc_done with (new := []) (a' := count_leader (xo_leader o) (n_acc n)); cbn; auto.
           unfold output_blocks. rewrite Eb, Ec. auto.
        -- split; [|repeat split]. apply oc_nothing; cbn; auto.
    + pose proof (exec_batches_spec f (n_db n) o Hs (p :: flat) 0 (batches_of o) (xo_digests o) w0 prev) as X.
      rewrite <- Ef, flatten_batches_at in X. specialize (X eq_refl eq_refl Even eq_refl Hw V0). destruct X as [X _].
      rewrite Ef in X. destruct (ExecBatches f (n_db n) o 0 (p :: flat) w0) as [w|w|w|w].
      * destruct X as (l & HB & Ed & V). cbn [w0 w_done] in Ed. rewrite app_nil_r in Ed.
        assert (Hne : batches_of o <> []).
        { intros E. assert (Z : length (flatten_batches o) = 0%nat) by (rewrite flatten_length, E; reflexivity).
          rewrite Ef in Z. discriminate Z. }
        eapply finish_outcome with (new := l) (a' := w_acc w); auto.
        -- intros ->. inversion HB; congruence.
        -- unfold output_blocks. destruct (batches_of o); [congruence|]. exact HB.
      * destruct X as (d & q & Ed & (V1 & V2 & V3 & _)). split; [|repeat split]. apply oc_nothing; cbn; auto; [|congruence].
        rewrite V1. apply rollback_all.
      * destruct X.
      * destruct X as (x & Hx & Hge). split; [|repeat split]. apply oc_panic with (x := x); cbn; auto.
Qed.

(* without faults an output that has a meaning is executed *)
Definition clean (f : faults) : Prop := (forall i, f_build f i = false) /\ hd PNone (f_persist f) = PNone /\ f_send f = true.
Lemma finish_up f o w n : clean f -> n_sf n = length (n_db n) -> n_up (finish state tx hash f o w n) = true.
Proof.
  intros (_ & C2 & C3) E. unfold finish. rewrite E, persist_clean by exact C2. cbn [negb]. rewrite C3. reflexivity.
Qed.
Lemma execute_up f o prev n new a :
  small o -> Forall (fun p => xb_worker (snd p) < 2 ^ 16) (batches_of o) ->
  length (batches_of o) = length (xo_digests o) ->
  settled prev n -> OutputBlocks o (count_leader (xo_leader o) (n_acc n)) prev new a -> clean f ->
  n_up (Execute f o n) = true.
Proof.
  intros Hs Hw Even S0 HO C. pose proof S0 as (S1 & S2 & S3 & S4 & S5 & t & S6). pose proof C as (C1 & C2 & C3).
  unfold execute. rewrite flatten_length, Even, Nat.eqb_refl. cbn [negb andb].
  set (w0 := {| w_mem := n_mem n; w_head := n_head n; w_canon := n_parent n; w_done := []; w_acc := count_leader (xo_leader o) (n_acc n) |}).
  assert (V0 : wview (n_db n) prev w0). { unfold wview, w0. cbn. repeat split; eauto. }
  unfold output_blocks in HO.
  destruct (flatten_batches o) as [|p flat] eqn:Ef.
  - assert (Eb : batches_of o = []).
    { apply length_zero_iff_nil. rewrite <- flatten_length, Ef. reflexivity. }
    rewrite Eb in HO. destruct HO as [_ HO].
    destruct (xo_close o) eqn:Ec; cbn [negb]; [|rewrite C3; reflexivity].
    destruct HO as (benef & b & Ea & _ & HB). rewrite Ea.
    pose proof (exec_payload_iff (f_build f 0%nat) (n_db n) prev w0 o 0 benef 0 (h_fee (n_parent n)) (h_limit (n_parent n)) (xo_digest o) 0 []) as XP.
    change (w_canon w0) with (n_parent n) in XP.
    assert (Cl : closes_at o 0 = true).
    { unfold closes_at, close_epoch_for_last_batch. rewrite Ec, <- Even, Eb. reflexivity. }
    rewrite Cl, S3 in XP.
    match type of XP with forall w', _ -> _ -> _ -> _ -> (_ = Some w' <-> _) =>
      pose proof (fun w' => proj2 (XP w' Hs ltac:(reflexivity) ltac:(reflexivity) V0)) as XQ end.
    rewrite S3. erewrite XQ; [apply finish_up; [exact C|exact S5]|]. split; [apply C1|]. exists b. split; [exact HB|reflexivity].
  - pose proof (exec_batches_spec f (n_db n) o Hs (p :: flat) 0 (batches_of o) (xo_digests o) w0 prev) as X.
    rewrite <- Ef, flatten_batches_at in X. specialize (X eq_refl eq_refl Even eq_refl Hw V0). destruct X as [_ X].
    rewrite Ef in X.
    assert (HO' : BatchBlocks o 0 (batches_of o) (xo_digests o) (w_acc w0) prev new a).
    { destruct (batches_of o) eqn:Eb; [|exact HO].
      assert (Z : length (flatten_batches o) = 0%nat) by (rewrite flatten_length, Eb; reflexivity).
      rewrite Ef in Z. discriminate Z. }
    destruct (X new a HO' C1) as (w' & ->). apply finish_up; [exact C|exact S5].
Qed.
End P2.
