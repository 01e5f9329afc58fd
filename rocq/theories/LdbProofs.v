(* Durability of barriers in the layered database, for an arbitrary key and an arbitrary property of its value. *)
From Verif Require Import Util LdbModel.
Local Open Scope N_scope.

Section Ldb.
Context {V : Type}.
Notation ldb := (ldb V). Notation op := (op V). Notation msg := (msg V). Notation table := (table V).

(* the value an operation gives to key k, if it touches it *)
Definition effect (k : key) (o : op) : option (option V) :=
  match o with
  | Ins k' v => if key_eqb k k' then Some (Some v) else None
  | Del k' => if key_eqb k k' then Some None else None
  | Clr t => if fst k =? t then Some None else None
  end.
Lemma apply_effect f o k : apply_op f o k = match effect k o with Some w => w | None => f k end.
Proof.
  destruct o; simpl; [destruct (key_eqb k k0)|destruct (key_eqb k k0)|destruct (fst k =? t)]; reflexivity.
Qed.

Definition ops_of (q : list msg) : list op := flat_map (fun m => match m with MOp o => [o] | _ => [] end) q.
Lemma ops_of_app a b : ops_of (a ++ b) = ops_of a ++ ops_of b.
Proof. unfold ops_of. apply flat_map_app. Qed.
Definition staged (d : ldb) : list op := match l_txn d with Some (ops, _) => ops | None => [] end.

Section OneKey.
Variable k : key.
Variable P : option V -> Prop.

Definition op_ok (o : op) : Prop := match effect k o with Some w => P w | None => True end.
Lemma apply_all_ok ops : forall f : table, P (f k) -> Forall op_ok ops -> P (apply_all ops f k).
Proof.
  induction ops as [|o ops IH]; intros f Hf Ho; [exact Hf|].
  inversion Ho as [|? ? H1 H2]; subst. simpl. apply IH; [|assumption].
  rewrite apply_effect. unfold op_ok in H1. destruct (effect k o); assumption.
Qed.

(* whatever happens next, including a crash, the key satisfies P *)
Definition settled (d : ldb) : Prop :=
  P (l_mem d k) /\ P (l_disk d k) /\ Forall op_ok (staged d) /\ Forall op_ok (ops_of (l_queue d)).

(* once barrier b is answered with success, the key will be settled *)
Definition waiting (b : N) (d : ldb) : Prop :=
  P (l_mem d k) /\
  ((exists q1 q2, l_queue d = q1 ++ MBarrier b :: q2 /\ Forall op_ok (ops_of q2) /\
      (l_failed d = false -> P (apply_all (ops_of q1) (apply_all (staged d) (l_disk d)) k))) \/
   (In b (l_pend d) /\ l_txn d <> None /\ Forall op_ok (ops_of (l_queue d)) /\
      (l_failed d = false -> P (apply_all (staged d) (l_disk d) k))) \/
   In (b, false) (l_acks d) \/
   (In (b, true) (l_acks d) /\ settled d)).

Lemma do_settled o d : op_ok o -> settled d -> settled (l_do o d).
Proof.
  intros Ho (H1 & H2 & H3 & H4). unfold settled, l_do, staged in *. cbn.
  split; [|split; [assumption|split; [assumption|]]].
  - rewrite apply_effect. unfold op_ok in Ho. destruct (effect k o); assumption.
  - rewrite ops_of_app. apply Forall_app. split; [assumption|]. repeat constructor. assumption.
Qed.
Lemma send_settled m d : ops_of [m] = [] -> settled d -> settled (l_send m d).
Proof.
  intros Hm (H1 & H2 & H3 & H4). unfold settled, l_send, staged in *. cbn.
  repeat split; auto. rewrite ops_of_app, Hm, app_nil_r. assumption.
Qed.
Lemma crash_settled d : l_full d = true -> settled d -> settled (l_crash d).
Proof.
  intros Hf (H1 & H2 & H3 & H4). unfold settled, l_crash, l_open, staged. cbn. rewrite Hf.
  repeat split; auto; constructor.
Qed.

Lemma mem_run ok (d : ldb) : l_full d = true -> l_mem (l_run ok d) = l_mem d.
Proof.
  intros Hf. unfold l_run. destruct (l_queue d) as [|m q]; [reflexivity|].
  destruct m; cbn; unfold end_txn, set_queue; cbn; rewrite ?Hf, ?andb_false_r;
  repeat match goal with |- context [match ?x with _ => _ end] => destruct x; cbn; try reflexivity end;
  rewrite ?Hf, ?andb_false_r; try reflexivity; cbn.
Qed.
Lemma full_run ok (d : ldb) : l_full (l_run ok d) = l_full d.
Proof.
  unfold l_run. destruct (l_queue d) as [|m q]; [reflexivity|].
  destruct m; cbn [run_msg]; unfold end_txn, ack_pending, set_queue; cbn; try reflexivity;
  destruct (l_txn d) as [[ops n]|]; cbn; try reflexivity; try (destruct ok; reflexivity);
  destruct (n <=? 1); reflexivity.
Qed.

(* the shape of one turn, as far as the disk is concerned *)
Lemma run_shape ok (d : ldb) m q : l_queue d = m :: q ->
  let d' := l_run ok d in
  l_queue d' = q /\
  (* nothing lost unless the latch is set *)
  (l_failed d' = false -> l_failed d = false /\
     (forall x, apply_all (ops_of [m]) (apply_all (staged d) (l_disk d)) x =
                apply_all (staged d') (l_disk d') x)) /\
  (l_failed d = true -> l_failed d' = true).
Proof.
  intros Hq. unfold l_run. rewrite Hq.
  destruct m; cbn [run_msg]; unfold end_txn, ack_pending, set_queue, staged; cbn.
  - destruct (l_txn d) as [[ops n]|] eqn:E; cbn; split; try reflexivity; split;
      try (intros ->; reflexivity); intros H; apply orb_false_iff in H as [H1 H2];
      (split; [assumption|]); destruct ok; try discriminate; intros x.
    + unfold apply_all. rewrite fold_left_app. reflexivity.
    + reflexivity.
  - destruct (l_txn d) as [[ops n]|] eqn:E; cbn; [auto|]. destruct ok; cbn; rewrite ?E; cbn; auto.
  - destruct (l_txn d) as [[ops n]|] eqn:E; cbn; [|rewrite ?E; cbn; auto].
    destruct (n <=? 1); cbn; [|auto]. split; [reflexivity|]. split; [|intros ->; reflexivity].
    intros H; apply orb_false_iff in H as [H1 H2]. split; [assumption|]. destruct ok; [reflexivity|discriminate].
  - destruct (l_txn d) as [[ops n]|] eqn:E; cbn; [|rewrite ?E; cbn; auto].
    destruct (n <=? 1); cbn; [|auto]. split; [reflexivity|]. split; [|intros ->; reflexivity].
    intros H; apply orb_false_iff in H as [H1 H2]. split; [assumption|]. destruct ok; [reflexivity|discriminate].
  - destruct (l_txn d) as [[ops n]|] eqn:E; cbn; rewrite ?E; cbn; auto.
  - destruct (l_txn d) as [[ops n]|] eqn:E; cbn; rewrite ?E; cbn; auto.
Qed.

Lemma apply_all_ext ops : forall f g : table, (forall x, f x = g x) -> forall x, apply_all ops f x = apply_all ops g x.
Proof.
  induction ops as [|o ops IH]; intros f g H x; [apply H|].
  simpl. apply IH. intros y. rewrite !apply_effect, H. reflexivity.
Qed.
Lemma apply_all_app a b (f : table) : apply_all (a ++ b) f = apply_all b (apply_all a f).
Proof. unfold apply_all. apply fold_left_app. Qed.

Lemma ops_of_cons m q : ops_of (m :: q) = ops_of [m] ++ ops_of q.
Proof. apply (ops_of_app [m] q). Qed.

(* which disk contents and staged writes a turn can produce *)
Lemma run_disk ok (d : ldb) m q : l_queue d = m :: q ->
  let d' := l_run ok d in
  (l_disk d' = l_disk d \/ l_disk d' = apply_all (ops_of [m]) (l_disk d) \/
   l_disk d' = apply_all (staged d) (l_disk d)) /\
  (forall o, In o (staged d') -> In o (staged d) \/ In o (ops_of [m])).
Proof.
  intros Hq. unfold l_run. rewrite Hq.
  destruct m; cbn [run_msg]; unfold end_txn, ack_pending, set_queue, staged; cbn.
  - destruct (l_txn d) as [[ops n]|]; cbn.
    + split; [auto|]. intros x. destruct ok; [rewrite in_app_iff; cbn; tauto|auto].
    + split; [destruct ok; cbn; auto|contradiction].
  - destruct (l_txn d) as [[ops n]|] eqn:E; cbn; [auto|]. destruct ok; cbn; rewrite ?E; cbn; auto.
  - destruct (l_txn d) as [[ops n]|] eqn:E; cbn; [|rewrite ?E; cbn; auto].
    destruct (n <=? 1); cbn; [|auto]. destruct ok; split; auto; contradiction.
  - destruct (l_txn d) as [[ops n]|] eqn:E; cbn; [|rewrite ?E; cbn; auto].
    destruct (n <=? 1); cbn; [|auto]. destruct ok; split; auto; contradiction.
  - destruct (l_txn d) as [[ops n]|] eqn:E; cbn; rewrite ?E; cbn; auto.
  - destruct (l_txn d) as [[ops n]|] eqn:E; cbn; rewrite ?E; cbn; auto.
Qed.

Lemma run_settled ok d : l_full d = true -> settled d -> settled (l_run ok d).
Proof.
  intros Hf (H1 & H2 & H3 & H4).
  destruct (l_queue d) as [|m q] eqn:Hq.
  { unfold l_run. rewrite Hq. unfold settled. rewrite Hq. auto. }
  destruct (run_shape ok d m q Hq) as [S1 _].
  destruct (run_disk ok d m q Hq) as [S2 S3].
  rewrite ops_of_cons in H4. apply Forall_app in H4 as [H4 H5].
  unfold settled. rewrite mem_run by assumption. split; [assumption|]. split; [|split].
  - destruct S2 as [->|[->| ->]]; [assumption|apply apply_all_ok; assumption|apply apply_all_ok; assumption].
  - rewrite Forall_forall in *. intros o Ho. destruct (S3 o Ho); auto.
  - rewrite S1. assumption.
Qed.

(* acknowledgements are never withdrawn *)
Lemma run_acks ok (d : ldb) i b : In (i, b) (l_acks d) -> In (i, b) (l_acks (l_run ok d)).
Proof.
  unfold l_run. destruct (l_queue d) as [|m q]; [auto|]. intros H.
  destruct m; cbn [run_msg]; unfold end_txn, ack_pending, set_queue; cbn;
  repeat match goal with |- context [match ?x with _ => _ end] => destruct x; cbn end;
  rewrite ?in_app_iff; auto.
Qed.

(* a pending barrier stays pending or is answered *)
Lemma run_pend ok (d : ldb) b m q : l_queue d = m :: q -> In b (l_pend d) -> l_txn d <> None ->
  let d' := l_run ok d in
  (In b (l_pend d') /\ l_txn d' <> None) \/
  (l_txn d' = None /\ In (b, negb (l_failed d')) (l_acks d')).
Proof.
  intros Hq Hb Ht. unfold l_run. rewrite Hq.
  destruct (l_txn d) as [[ops n]|] eqn:E; [|contradiction].
  destruct m; cbn [run_msg]; unfold end_txn, ack_pending, set_queue; cbn; rewrite ?E; cbn.
  - left. split; [assumption|discriminate].
  - left. split; [assumption|discriminate].
  - destruct (n <=? 1); cbn; [|left; split; [assumption|discriminate]].
    right. split; [reflexivity|]. apply in_app_iff. right. apply in_map_iff. exists b. auto.
  - destruct (n <=? 1); cbn; [|left; split; [assumption|discriminate]].
    right. split; [reflexivity|]. apply in_app_iff. right. apply in_map_iff. exists b. auto.
  - left. split; [apply in_app_iff; auto|discriminate].
  - left. split; [assumption|]. discriminate.
Qed.

Lemma run_barrier ok (d : ldb) b q : l_queue d = MBarrier b :: q ->
  let d' := l_run ok d in
  l_disk d' = l_disk d /\ l_txn d' = l_txn d /\ l_failed d' = l_failed d /\ l_queue d' = q /\
  ((l_txn d <> None /\ In b (l_pend d')) \/ (l_txn d = None /\ In (b, negb (l_failed d)) (l_acks d'))).
Proof.
  intros Hq. unfold l_run. rewrite Hq. cbn [run_msg]. unfold set_queue. cbn.
  destruct (l_txn d) as [[ops n]|] eqn:E; cbn; (repeat split; auto).
  - left. split; [discriminate|]. apply in_app_iff. cbn. auto.
  - right. split; [reflexivity|]. apply in_app_iff. cbn. auto.
Qed.

Lemma run_waiting ok b d : l_full d = true -> waiting b d -> waiting b (l_run ok d).
Proof.
  intros Hf [H0 H]. split; [rewrite mem_run by assumption; assumption|].
  destruct (l_queue d) as [|m q] eqn:Hq.
  { unfold l_run. rewrite Hq. destruct H as [(q1 & q2 & E & _)|H]; [destruct q1; discriminate|].
    right. rewrite Hq. exact H. }
  destruct (run_shape ok d m q Hq) as (S1 & S2 & S3).
  destruct H as [(q1 & q2 & E & A & B)|[(Hb & Ht & A & B)|[H|[H1 H2]]]].
  - destruct q1 as [|m1 q1].
    + (* the barrier is at the head *)
      simpl in E. assert (Hq' : l_queue d = MBarrier b :: q2) by congruence.
      destruct (run_barrier ok d b q2 Hq') as (D1 & D2 & D3 & D4 & [[D5 D6]|[D5 D6]]).
      * right. left. split; [assumption|]. rewrite D2, D4, D3, D1. split; [assumption|]. split; [assumption|].
        intros F. specialize (B F). unfold staged in *. rewrite D2. exact B.
      * destruct (l_failed d) eqn:F.
        -- right. right. left. exact D6.
        -- right. right. right. split; [exact D6|]. unfold settled.
           rewrite mem_run by assumption. split; [assumption|]. rewrite D1, D4. unfold staged in *. rewrite D2, D5 in *.
           specialize (B eq_refl). simpl in B. split; [exact B|]. split; [constructor|assumption].
    + (* something before the barrier is processed *)
      simpl in E. injection E as E1 E2. subst m1. left. exists q1, q2. split; [congruence|]. split; [assumption|].
      intros F. destruct (S2 F) as [F' S2']. specialize (B F').
      rewrite ops_of_cons, apply_all_app in B.
      erewrite <- apply_all_ext; [exact B|]. exact S2'.
  - rewrite ops_of_cons in A. apply Forall_app in A as [A1 A2].
    destruct (run_pend ok d b m q Hq Hb Ht) as [[C1 C2]|[C1 C2]].
    + right. left. split; [assumption|]. split; [assumption|]. rewrite S1. split; [assumption|].
      intros F. destruct (S2 F) as [F' S2']. rewrite <- S2'. apply apply_all_ok; [apply B; assumption|assumption].
    + destruct (l_failed (l_run ok d)) eqn:F.
      * right. right. left. exact C2.
      * right. right. right. split; [exact C2|]. destruct (S2 eq_refl) as [F' S2'].
        unfold settled. rewrite mem_run by assumption. split; [assumption|].
        rewrite S1. assert (St : staged (l_run ok d) = []) by (unfold staged; rewrite C1; reflexivity).
        specialize (S2' k). rewrite St in S2' |- *. cbn [apply_all fold_left] in S2'.
        split; [|split; [constructor|assumption]].
        rewrite <- S2'.
        apply apply_all_ok; [apply B; assumption|assumption].
  - right. right. left. apply run_acks. assumption.
  - right. right. right. split; [apply run_acks; assumption|]. apply run_settled; assumption.
Qed.

Lemma do_waiting o b d : op_ok o -> waiting b d -> waiting b (l_do o d).
Proof.
  intros Ho [H0 H]. split.
  { unfold l_do. cbn. rewrite apply_effect. unfold op_ok in Ho. destruct (effect k o); assumption. }
  assert (OO : Forall op_ok (ops_of [MOp o])) by (repeat constructor; assumption).
  destruct H as [(q1 & q2 & E & A & B)|[(Hb & Ht & A & B)|[H|[H1 H2]]]].
  - left. exists q1, (q2 ++ [MOp o]). unfold l_do, staged in *. cbn. split.
    { rewrite E, <- app_assoc. reflexivity. }
    split; [rewrite ops_of_app; apply Forall_app; auto|exact B].
  - right. left. unfold l_do, staged in *. cbn. split; [assumption|]. split; [assumption|].
    split; [rewrite ops_of_app; apply Forall_app; auto|exact B].
  - right. right. left. exact H.
  - right. right. right. split; [exact H1|]. apply do_settled; assumption.
Qed.
Lemma send_waiting m b d : ops_of [m] = [] -> waiting b d -> waiting b (l_send m d).
Proof.
  intros Hm [H0 H]. split; [exact H0|].
  destruct H as [(q1 & q2 & E & A & B)|[(Hb & Ht & A & B)|[H|[H1 H2]]]].
  - left. exists q1, (q2 ++ [m]). unfold l_send, staged in *. cbn. split.
    { rewrite E, <- app_assoc. reflexivity. }
    split; [rewrite ops_of_app, Hm, app_nil_r; assumption|exact B].
  - right. left. unfold l_send, staged in *. cbn. split; [assumption|]. split; [assumption|].
    split; [rewrite ops_of_app, Hm, app_nil_r; assumption|exact B].
  - right. right. left. exact H.
  - right. right. right. split; [exact H1|]. apply send_settled; assumption.
Qed.

(* starting to wait: the logical contents of the key when the barrier is enqueued satisfies P *)
Lemma barrier_waiting b d : P (l_mem d k) ->
  (l_failed d = false -> P (apply_all (ops_of (l_queue d)) (apply_all (staged d) (l_disk d)) k)) ->
  waiting b (l_send (MBarrier b) d).
Proof.
  intros H1 H2. split; [exact H1|]. left. exists (l_queue d), []. unfold l_send, staged in *. cbn.
  split; [reflexivity|]. split; [constructor|exact H2].
Qed.
End OneKey.

(* full-memory mode: while the latch is not set, memory is the disk plus everything in flight *)
Definition coherent (d : ldb) : Prop :=
  l_failed d = false ->
  forall k, l_mem d k = apply_all (ops_of (l_queue d)) (apply_all (staged d) (l_disk d)) k.
Lemma coherent_open disk : coherent (l_open true disk).
Proof. intros _ k. reflexivity. Qed.
Lemma coherent_do o d : coherent d -> coherent (l_do o d).
Proof.
  intros H F k. specialize (H F).
  change (apply_op (l_mem d) o k = apply_all (ops_of (l_queue d ++ [MOp o])) (apply_all (staged d) (l_disk d)) k).
  rewrite ops_of_app, apply_all_app.
  change (apply_all (ops_of [MOp o]) (apply_all (ops_of (l_queue d)) (apply_all (staged d) (l_disk d))) k)
    with (apply_op (apply_all (ops_of (l_queue d)) (apply_all (staged d) (l_disk d))) o k).
  rewrite !apply_effect, H. reflexivity.
Qed.
Lemma coherent_send m d : ops_of [m] = [] -> coherent d -> coherent (l_send m d).
Proof.
  intros Hm H F k. specialize (H F).
  change (l_mem d k = apply_all (ops_of (l_queue d ++ [m])) (apply_all (staged d) (l_disk d)) k).
  rewrite ops_of_app, Hm, app_nil_r. apply H.
Qed.
Lemma coherent_run ok d : l_full d = true -> coherent d -> coherent (l_run ok d).
Proof.
  intros Hf H F k. rewrite mem_run by assumption.
  destruct (l_queue d) as [|m q] eqn:Hq.
  { unfold l_run in *. rewrite Hq in *. apply H. assumption. }
  destruct (run_shape ok d m q Hq) as (S1 & S2 & S3). destruct (S2 F) as [F' S2'].
  rewrite (H F' k), Hq, S1, ops_of_cons, apply_all_app. apply apply_all_ext. exact S2'.
Qed.
Lemma coherent_crash d : l_full d = true -> coherent (l_crash d).
Proof. intros Hf. unfold l_crash. rewrite Hf. apply coherent_open. Qed.

(* barrier identifiers: fresh ones stay distinct, so an answer belongs to one barrier only *)
Definition bids (q : list msg) : list N := flat_map (fun m => match m with MBarrier i => [i] | _ => [] end) q.
Definition all_ids (d : ldb) : list N := bids (l_queue d) ++ l_pend d ++ map fst (l_acks d).
Lemma bids_app a b : bids (a ++ b) = bids a ++ bids b.
Proof. apply flat_map_app. Qed.
Lemma all_ids_do o (d : ldb) : all_ids (l_do o d) = all_ids d.
Proof. unfold all_ids, l_do. cbn. rewrite bids_app, app_nil_r. reflexivity. Qed.
Lemma all_ids_send m (d : ldb) : Permutation (all_ids (l_send m d)) (bids [m] ++ all_ids d).
Proof.
  unfold all_ids, l_send. cbn [l_queue l_pend l_acks]. rewrite bids_app, <- app_assoc.
  rewrite (app_assoc (bids (l_queue d)) (bids [m])).
  rewrite (Permutation_app_comm (bids (l_queue d)) (bids [m])). rewrite <- app_assoc. reflexivity.
Qed.
Lemma all_ids_run ok (d : ldb) : Permutation (all_ids (l_run ok d)) (all_ids d).
Proof.
  unfold all_ids, l_run. destruct (l_queue d) as [|m q] eqn:Hq; [rewrite Hq; reflexivity|].
  assert (E : forall dd : ldb, Permutation (l_pend (ack_pending dd) ++ map fst (l_acks (ack_pending dd)))
                                     (l_pend dd ++ map fst (l_acks dd : list (N * bool)))).
  { intros dd. unfold ack_pending. cbn. rewrite map_app, map_map. cbn. rewrite map_id.
    apply Permutation_app_comm. }
  destruct m; cbn [run_msg].
  - destruct (l_txn (set_queue d q)) as [[ops n]|]; cbn; reflexivity.
  - destruct (l_txn (set_queue d q)) as [[ops n]|]; [cbn; reflexivity|destruct ok; cbn; reflexivity].
  - unfold end_txn. destruct (l_txn (set_queue d q)) as [[ops n]|].
    + destruct (n <=? 1); [|cbn; reflexivity]. cbn [bids flat_map app].
      apply Permutation_app; [cbn; reflexivity|]. rewrite E. cbn. reflexivity.
    + apply Permutation_app; [cbn; reflexivity|]. rewrite E. cbn. reflexivity.
  - unfold end_txn. destruct (l_txn (set_queue d q)) as [[ops n]|].
    + destruct (n <=? 1); [|cbn; reflexivity]. cbn [bids flat_map app].
      apply Permutation_app; [cbn; reflexivity|]. rewrite E. cbn. reflexivity.
    + apply Permutation_app; [cbn; reflexivity|]. rewrite E. cbn. reflexivity.
  - destruct (l_txn (set_queue d q)) as [[ops n]|]; cbn.
    + rewrite <- app_assoc. cbn. rewrite <- !Permutation_middle. reflexivity.
    + rewrite map_app. cbn. fold (bids q).
      rewrite <- (Permutation_cons_append (map fst (l_acks d)) id).
      rewrite <- !Permutation_middle. reflexivity.
  - cbn. reflexivity.
Qed.

(* the answer to a barrier that is waited for *)
Lemma ack_settles (k : key) P b d : NoDup (all_ids d) -> waiting k P b d -> In (b, true) (l_acks d) -> settled k P d.
Proof.
  intros ND [_ H] Ha. unfold all_ids in ND.
  apply NoDup_app_elim in ND as (_ & ND2 & ND3).
  apply NoDup_app_elim in ND2 as (_ & ND4 & ND5).
  assert (Ha' : In b (map fst (l_acks d))) by (apply (in_map fst) in Ha; exact Ha).
  destruct H as [(q1 & q2 & E & _)|[(Hb & _)|[H|[_ H]]]].
  - exfalso. apply (ND3 b).
    + rewrite E, bids_app. apply in_app_iff. right. cbn. auto.
    + apply in_app_iff. auto.
  - exfalso. apply (ND5 b); assumption.
  - exfalso. clear -ND4 H Ha. revert ND4 H Ha. induction (l_acks d) as [|[i x] l IH]; cbn; intros ND H Ha; [contradiction|].
    inversion ND as [|? ? N1 N2]; subst.
    destruct H as [H|H], Ha as [Ha|Ha].
    + inversion H; inversion Ha; subst; discriminate.
    + inversion H; subst. apply N1. apply (in_map fst) in Ha. exact Ha.
    + inversion Ha; subst. apply N1. apply (in_map fst) in H. exact H.
    + auto.
  - assumption.
Qed.
End Ldb.
