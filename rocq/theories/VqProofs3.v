(* A quorum of gossiped votes becomes a stored certificate. *)
From Verif Require Import Util EpochModel EpochSpec EpochProofs VqModel VqSpec VqProofs VqProofs2.

Inductive stage := SWait | SOpen | SRun (evs : list vev).
(* the votes on their way to the collector, or already there *)
Definition pend (i : nat) (st : stage) (s : vsys) (v : vote) : Prop :=
  In v (y_bus s) \/ match st with SWait => False | SOpen => In v (y_buf s i) | SRun evs => In v (y_buf s i) \/ In (VVote v) evs end.
Definition got (E : eenv) (r : erec) (i : nat) (st : stage) (s : vsys) (k : N) : Prop :=
  exists v, pend i st s v /\ v_key v = k /\ v_epoch v = er_epoch r.
Definition lastq (s : vsys) : option qent := last (map Some (y_q s)) None.

Record kinv (E : eenv) (V : venv) (r : erec) (i : nat) (recs : list erec) (n : nat) (G : list N) (st : stage) (s : vsys) : Prop := {
  k_recs : db_recs (y_db s) = recs;
  k_tasks : forall t, In t (y_tasks s) -> er_epoch (t_rec t) <= er_epoch r;
  k_good : forall v, pend i st s v -> v_epoch v = er_epoch r -> v_hash v = ee_dig E r /\ vgood V v;
  k_seen : forall k, seen (y_seen s) (k, er_epoch r) = true -> got E r i st s k;
  k_G : forall k, In k G -> got E r i st s k;
  k_ids : forall x, In x (y_q s) -> q_id x = i -> q_ep x = er_epoch r;
  k_stage : match st with
    | SWait => y_watch s = Some r /\ y_next s = i /\ find_q (er_epoch r) (y_q s) = None /\
               (y_q s = [] \/ exists l, lastq s = Some l /\ er_epoch r = S (q_ep l)) /\
               (forall v, In v (y_bus s) -> v_epoch v = er_epoch r) /\ older_certified E (y_db s) (er_epoch r) /\
               (forall t, In t (y_tasks s) -> t_id t <> i) /\ (forall x, In x (y_q s) -> q_id x <> i)
    | SOpen => y_watch s = Some r /\ y_next s = S i /\ find_q (er_epoch r) (y_q s) = Some (mk_qent (er_epoch r) i true) /\
               lastq s = Some (mk_qent (er_epoch r) i true) /\
               (forall v, In v (y_bus s) -> v_epoch v = er_epoch r) /\ older_certified E (y_db s) (er_epoch r) /\
               (forall t, In t (y_tasks s) -> t_id t <> i) /\ (forall v, In v (y_buf s i) -> v_epoch v = er_epoch r)
    | SRun evs => y_watch s = None /\ find_q (er_epoch r) (y_q s) = Some (mk_qent (er_epoch r) i false) /\
               lastq s = Some (mk_qent (er_epoch r) i false) /\
               (forall v, In v (y_bus s) -> v_epoch v <= er_epoch r) /\ (forall v, In v (y_buf s i) -> v_epoch v = er_epoch r) /\
               ~ In VClosed evs /\ tmos evs <= n /\ (forall v, In (VVote v) evs -> v_epoch v = er_epoch r) /\
               exists t, find (fun t => t_id t =? i) (y_tasks s) = Some t /\ t_rec t = r /\ t_run t = true /\
                 vloop E r (vstart r (ve_me V) (ve_sign V (ee_dig E r))) evs = (t_st t, false)
    end }.

(* ---------- the end of a task touches certificates only ---------- *)
Definition certs_grow (d d' : edb) : Prop := db_recs d' = db_recs d /\ db_dummy d' = db_dummy d /\ forall k c, cget (db_certs d) k = Some c -> cget (db_certs d') k = Some c.
Lemma certs_grow_refl d : certs_grow d d.
Proof. unfold certs_grow. auto. Qed.
Lemma save_cert_grow w d k c : certs_grow d (snd (db_save_cert w d k c)).
Proof.
  unfold db_save_cert. destruct (cget (db_certs d) k) eqn:Eg; [apply certs_grow_refl|]. destruct w; [|apply certs_grow_refl].
  split; [auto|]. split; [auto|]. intros k' c' H. cbn [snd db_certs cget]. destruct (N.eqb k k') eqn:Ek; auto. apply N.eqb_eq in Ek. subst. congruence.
Qed.
Lemma save_old_grow E w1 w2 d x c : er_epoch x < length (db_recs d) -> certs_grow d (snd (db_save E w1 w2 d x c)).
Proof.
  intros H. unfold db_save, db_save_record. apply Nat.ltb_lt in H. rewrite H. apply save_cert_grow.
Qed.
Lemma recover_grow E w1 w2 e answers : forall d, e < length (db_recs d) -> certs_grow d (recover E w1 w2 e d answers).
Proof.
  induction answers as [|[[x c]|] answers IH]; intros d H; cbn [recover]; [apply certs_grow_refl| |auto].
  destruct (validate_downloaded E d e x c) eqn:Ev; auto. apply validated in Ev as [_ Ev]. apply save_old_grow. lia.
Qed.
Lemma finish_grow E w1 w2 r st answers d : er_epoch r < length (db_recs d) -> certs_grow d (finish E w1 w2 r st answers d).
Proof.
  intros H. unfold finish. destruct (vs_reached st); [|apply recover_grow; auto]. destruct (vfinish E r st); [apply save_cert_grow|apply certs_grow_refl].
Qed.
Lemma epoch_certified_grow E d d' k : certs_grow d d' -> epoch_certified E d k = true -> epoch_certified E d' k = true.
Proof.
  intros (G1 & G2 & G3). unfold epoch_certified, record_by_epoch. rewrite G1, G2.
  destruct (match k with 0 => match db_recs d with [] => db_dummy d | _ :: _ => nth_error (db_recs d) k end | S _ => nth_error (db_recs d) k end) as [x|]; [|auto].
  destruct (cget (db_certs d) (ee_dig E x)) eqn:Ec; [|discriminate]. rewrite (G3 _ _ Ec). auto.
Qed.


Lemma calm_db E V s g (recs : list erec) e : calm g = true -> db_recs (y_db s) = recs -> length recs = S e -> (forall t, In t (y_tasks s) -> er_epoch (t_rec t) <= e) ->
  certs_grow (y_db s) (y_db (snd (ystep E V s g))).
Proof.
  intros Hc Hr Hl Ht. destruct g as [topic v| | |i tmo w1 w2 answers|r w wp|e' r c w1 w2|r| |n keep]; cbn [calm] in Hc; try discriminate; cbn [ystep snd].
  - unfold on_gossip. destruct (negb topic); [apply certs_grow_refl|]. destruct (epoch_by_number E (y_db s) (v_epoch v)) as [[r [c|]]|]; try apply certs_grow_refl.
    repeat match goal with |- context[if ?b then _ else _] => destruct b; try apply certs_grow_refl end.
  - unfold on_route. destruct (y_bus s); [apply certs_grow_refl|]. unfold route. cbn [y_q].
    destruct (find_q _ (y_q s)); [match goal with |- context[if ?b then _ else _] => destruct b end; apply certs_grow_refl|]. cbv zeta.
    destruct (last (map Some (y_q s)) None) as [l0|]; [match goal with |- context[if ?b then _ else _] => destruct b end|]; apply certs_grow_refl.
  - unfold on_record. destruct (y_watch s) as [r|]; [|apply certs_grow_refl]. cbv zeta. unfold take_channel. cbn [y_q].
    destruct (find_q (er_epoch r) (y_q s)) as [x|]; [destruct (q_rx x)|]; apply certs_grow_refl.
  - unfold on_task. destruct (find (fun t => t_id t =? i) (y_tasks s)) as [t|] eqn:Ef; [|apply certs_grow_refl]. destruct (negb (t_run t)); [apply certs_grow_refl|].
    apply find_some in Ef as [Ef _]. specialize (Ht t Ef).
    destruct tmo; [|destruct (y_buf s i) as [|v rest]; [destruct (existsb (fun x => q_id x =? i) (y_q s)); [apply certs_grow_refl|]|]];
      match goal with |- context[vturn ?a ?b ?c ?d] => destruct (vturn a b c d) as [st [|]] end; cbn [snd y_db]; try apply certs_grow_refl; apply finish_grow; rewrite Hr; lia.
Qed.
Lemma tasks_old E V s g e : calm g = true -> (forall r, y_watch s = Some r -> er_epoch r <= e) -> (forall t, In t (y_tasks s) -> er_epoch (t_rec t) <= e) ->
  forall t, In t (y_tasks (snd (ystep E V s g))) -> er_epoch (t_rec t) <= e.
Proof.
  intros Hc Hw Ht. destruct g as [topic v| | |i tmo w1 w2 answers|r w wp|e' r c w1 w2|r| |n keep]; cbn [calm] in Hc; try discriminate; cbn [ystep snd].
  - unfold on_gossip. destruct (negb topic); [auto|]. destruct (epoch_by_number E (y_db s) (v_epoch v)) as [[r [c|]]|]; auto.
    repeat match goal with |- context[if ?b then _ else _] => destruct b; auto end.
  - unfold on_route. destruct (y_bus s); [auto|]. unfold route. cbn [y_q].
    destruct (find_q _ (y_q s)); [match goal with |- context[if ?b then _ else _] => destruct b end; auto|]. cbv zeta.
    destruct (last (map Some (y_q s)) None) as [l0|]; [match goal with |- context[if ?b then _ else _] => destruct b end|]; auto.
  - unfold on_record. destruct (y_watch s) as [r|] eqn:Ew; [|auto]. cbv zeta. unfold take_channel. cbn [y_q].
    destruct (find_q (er_epoch r) (y_q s)) as [x|]; [destruct (q_rx x)|]; cbn [snd y_tasks]; auto; intros t [<-|Hi]; auto; cbn [t_rec]; auto.
  - unfold on_task. destruct (find (fun t => t_id t =? i) (y_tasks s)) as [t|] eqn:Ef; [|auto]. destruct (negb (t_run t)); [auto|].
    destruct tmo; [|destruct (y_buf s i) as [|v rest]; [destruct (existsb (fun x => q_id x =? i) (y_q s)); [auto|]|]];
      match goal with |- context[vturn ?a ?b ?c ?d] => destruct (vturn a b c d) as [st fin] end; cbn [snd y_tasks];
      intros t' Hi; apply put_task_In in Hi as (t2 & T1 & _ & T3); rewrite <- T3; auto.
Qed.
Lemma certified_stays E V s g recs r e : calm g = true -> db_recs (y_db s) = recs -> length recs = S e ->
  (forall t, In t (y_tasks s) -> er_epoch (t_rec t) <= e) -> certified E r s -> certified E r (snd (ystep E V s g)).
Proof.
  intros Hc Hr Hl Ht (c & C1 & C2). destruct (calm_db E V s g recs e Hc Hr Hl Ht) as (_ & _ & G). exists c. auto.
Qed.

(* ---------- queues ---------- *)
Lemma find_q_push e q x : find_q e q = None -> q_ep x = e -> find_q e (push_q q x) = Some x.
Proof.
  intros Hf Hx. unfold push_q.
  assert (H : forall l, find_q e l = None -> find_q e (l ++ [x]) = Some x).
  { induction l as [|y l IH]; unfold find_q; cbn [app find]; [rewrite Hx, Nat.eqb_refl; auto|]. destruct (q_ep y =? e); [discriminate|]. apply IH. }
  apply H. destruct (MAX_QUEUES <=? length q); auto. destruct q as [|y q]; auto. unfold find_q in *. cbn [find tl] in *. destruct (q_ep y =? e); [discriminate|auto].
Qed.
Lemma lastq_push q x : last (map Some (push_q q x)) None = Some x.
Proof. unfold push_q. rewrite map_app. cbn [map]. rewrite last_last. auto. Qed.
Lemma find_q_drop e k q : e <> k -> find_q e (drop_q k q) = find_q e q.
Proof.
  intros H. induction q as [|y q IH]; cbn [drop_q]; [auto|]. destruct (q_ep y =? k) eqn:Ek.
  - unfold find_q. cbn [find]. apply Nat.eqb_eq in Ek. destruct (q_ep y =? e) eqn:Ee; [apply Nat.eqb_eq in Ee; congruence|auto].
  - unfold find_q in *. cbn [find]. rewrite IH. auto.
Qed.
Lemma last_cons2 {A} (x y : A) l d : last (x :: y :: l) d = last (y :: l) d.
Proof. auto. Qed.
Lemma lastq_drop k q l : last (map Some q) None = Some l -> q_ep l <> k -> last (map Some (drop_q k q)) None = Some l.
Proof.
  induction q as [|y q IH]; cbn [drop_q map]; [discriminate|]. intros Hl Hk. destruct (q_ep y =? k) eqn:Ek.
  - destruct q as [|z q]; [|exact Hl]. cbn in Hl. injection Hl as ->. apply Nat.eqb_eq in Ek. congruence.
  - destruct q as [|z q]; [exact Hl|]. cbn [map] in Hl. rewrite last_cons2 in Hl. specialize (IH Hl Hk). cbn [map].
    destruct (map Some (drop_q k (z :: q))) as [|a m] eqn:Em; [cbn in IH; discriminate|]. rewrite last_cons2. auto.
Qed.
Lemma lastq_map (f : qent -> qent) q l : last (map Some q) None = Some l -> last (map Some (map f q)) None = Some (f l).
Proof.
  induction q as [|y q IH]; cbn [map]; [discriminate|]. destruct q as [|z q]; [cbn; intros H; injection H as ->; auto|].
  cbn [map] in *. rewrite !last_cons2. auto.
Qed.
Lemma find_q_map (f : qent -> qent) e q : (forall x, q_ep (f x) = q_ep x) -> find_q e (map f q) = match find_q e q with Some x => Some (f x) | None => None end.
Proof. intros H. unfold find_q. induction q as [|y q IH]; cbn [map find]; [auto|]. rewrite H. destruct (q_ep y =? e); auto. Qed.
Lemma find_put_task_other i j st run l : i <> j -> find (fun t => t_id t =? i) (put_task j st run l) = find (fun t => t_id t =? i) l.
Proof.
  intros H. unfold put_task. induction l as [|t l IH]; cbn [map find]; [auto|]. destruct (t_id t =? j) eqn:Ej.
  - apply Nat.eqb_eq in Ej. cbn [t_id]. destruct (t_id t =? i) eqn:Ei; [apply Nat.eqb_eq in Ei; congruence|auto].
  - destruct (t_id t =? i); auto.
Qed.
Lemma find_put_task i st run l t : find (fun t => t_id t =? i) l = Some t ->
  find (fun t => t_id t =? i) (put_task i st run l) = Some (mk_vtask i (t_rec t) st run).
Proof.
  unfold put_task. induction l as [|x l IH]; cbn [map find]; [discriminate|]. destruct (t_id x =? i) eqn:Ex.
  - intros H. injection H as <-. cbn [t_id]. rewrite Ex. apply Nat.eqb_eq in Ex. rewrite Ex. auto.
  - rewrite Ex. auto.
Qed.

(* the gate forwards only votes on the record of their epoch *)
Lemma forwarded_epoch E r s recs v x : db_recs (y_db s) = recs -> length recs = S (er_epoch r) -> nth_error recs (er_epoch r) = Some r ->
  epoch_by_number E (y_db s) (v_epoch v) = Some (x, None) -> v_epoch v <= er_epoch r /\ (v_epoch v = er_epoch r -> x = r).
Proof.
  intros Hr Hl Hn H. unfold epoch_by_number in H.
  rewrite record_by_epoch_nth in H by (rewrite Hr; intros Hx; rewrite Hx in Hl; discriminate). rewrite Hr in H.
  destruct (nth_error recs (v_epoch v)) as [y|] eqn:Ey; [|discriminate]. injection H as -> _.
  assert (v_epoch v < length recs) by (apply nth_error_Some; congruence). split; [lia|]. intros He. rewrite He in Ey. congruence.
Qed.
Lemma older_not_forwarded E r s recs v x : db_recs (y_db s) = recs -> length recs = S (er_epoch r) ->
  older_certified E (y_db s) (er_epoch r) -> epoch_by_number E (y_db s) (v_epoch v) = Some (x, None) -> v_epoch v = er_epoch r.
Proof.
  intros Hr Hl Ho H. destruct (Nat.lt_ge_cases (v_epoch v) (er_epoch r)) as [Hlt|Hge].
  - exfalso. specialize (Ho _ Hlt). unfold epoch_certified in Ho. unfold epoch_by_number in H.
    destruct (record_by_epoch (y_db s) (v_epoch v)) as [y|]; [|discriminate]. injection H as -> Hc. rewrite Hc in Ho. discriminate.
  - unfold epoch_by_number in H. rewrite record_by_epoch_nth in H by (rewrite Hr; intros Hx; rewrite Hx in Hl; discriminate). rewrite Hr in H.
    destruct (nth_error recs (v_epoch v)) as [y|] eqn:Ey; [|discriminate]. assert (v_epoch v < length recs) by (apply nth_error_Some; congruence). lia.
Qed.
