From Verif Require Import Util EpochModel EpochSpec EpochProofs VqModel VqSpec.

(* ---------- lists and maps ---------- *)
Lemma NoDup_snoc {A} (l : list A) x : NoDup l -> ~ In x l -> NoDup (l ++ [x]).
Proof.
  intros Hn Hx. apply (Permutation_NoDup (Permutation_cons_append l x)). constructor; auto.
Qed.
Lemma keyeq_eq a b : keyeq a b = true <-> a = b.
Proof.
  unfold keyeq. destruct a as [a1 a2], b as [b1 b2]. cbn [fst snd]. rewrite andb_true_iff, N.eqb_eq, Nat.eqb_eq.
  split; [intros [-> ->]; auto|intros H; injection H; auto].
Qed.
Lemma seen_In l k : seen l k = true <-> In k (map fst l).
Proof.
  unfold seen. rewrite existsb_exists, in_map_iff. split.
  - intros (p & H1 & H2). apply keyeq_eq in H2. eauto.
  - intros (p & H1 & H2). exists p. split; auto. apply keyeq_eq; auto.
Qed.
Lemma oldest_In l o : oldest l = Some o -> In o l.
Proof.
  revert o. induction l as [|p l IH]; intros o; cbn [oldest]; [discriminate|].
  destruct (oldest l) as [x|]; [destruct (N.leb (snd p) (snd x))|]; intros H; injection H as <-; simpl; auto.
Qed.
Lemma oldest_some p l : exists o, oldest (p :: l) = Some o.
Proof. cbn [oldest]. destruct (oldest l) as [x|]; [destruct (N.leb (snd p) (snd x))|]; eauto. Qed.
Lemma filter_shrink {A} (f : A -> bool) l x : In x l -> f x = false -> length (filter f l) < length l.
Proof.
  induction l as [|y l IH]; intros Hin Hf; [destruct Hin|]. destruct Hin as [<-|H]; cbn [filter length].
  - rewrite Hf. pose proof (filter_len_le f l) as Hl. lia.
  - destruct (f y); cbn [length]; [specialize (IH H Hf); lia|]. pose proof (filter_len_le f l). lia.
Qed.
Lemma record_vote_bound l k : length l <= MAX_EPOCH_VOTES -> length (record_vote l k) <= MAX_EPOCH_VOTES.
Proof.
  intros H. unfold record_vote. cbv zeta.
  assert (Hs : forall l1, length l1 <= MAX_EPOCH_VOTES -> (seen l1 k = true \/ length l1 < MAX_EPOCH_VOTES) ->
     S (length (filter (fun p => negb (keyeq (fst p) k)) l1)) <= MAX_EPOCH_VOTES).
  { intros l1 H1 [H2|H2].
    - apply seen_In, in_map_iff in H2 as (p & P1 & P2).
      pose proof (filter_shrink (fun p => negb (keyeq (fst p) k)) l1 p P2) as Hx.
      assert (Hk : keyeq (fst p) k = true) by (apply keyeq_eq; auto). cbv beta in Hx. rewrite Hk in Hx. specialize (Hx eq_refl). lia.
    - pose proof (filter_len_le (fun p => negb (keyeq (fst p) k)) l1). lia. }
  cbn [length]. destruct (MAX_EPOCH_VOTES <=? length l) eqn:El; cbn [andb].
  - destruct (seen l k) eqn:Es; cbn [negb]; [apply Hs; auto|].
    destruct l as [|p l']; [apply Hs; auto; right; vm_compute; lia|].
    destruct (oldest_some p l') as [o Ho]. rewrite Ho. pose proof (oldest_In _ _ Ho) as Hi.
    pose proof (filter_shrink (fun q => negb (keyeq (fst q) (fst o))) (p :: l') o Hi) as Hx. cbv beta in Hx.
    assert (Hk : keyeq (fst o) (fst o) = true) by (apply keyeq_eq; auto). rewrite Hk in Hx. specialize (Hx eq_refl).
    apply Hs; [|right]; lia.
  - apply Nat.leb_gt in El. apply Hs; auto.
Qed.
Lemma record_vote_seen l k k' : seen (record_vote l k) k' = true -> k' = k \/ seen l k' = true.
Proof.
  rewrite !seen_In. unfold record_vote. cbv zeta. cbn [map]. intros [H|H]; [left; symmetry; exact H|]. right.
  apply in_map_iff in H as (p & P1 & P2). apply filter_In in P2 as [P2 _]. apply in_map_iff. exists p. split; auto.
  destruct ((MAX_EPOCH_VOTES <=? length l) && negb (seen l k)); auto. destruct (oldest l); auto. apply filter_In in P2. tauto.
Qed.
Lemma record_vote_self l k : seen (record_vote l k) k = true.
Proof. apply seen_In. unfold record_vote. cbv zeta. cbn [map fst]. simpl; auto. Qed.

Lemma find_q_In e q x : find_q e q = Some x -> In x q /\ q_ep x = e.
Proof. unfold find_q. intros H. apply find_some in H as [H1 H2]. apply Nat.eqb_eq in H2. auto. Qed.
Lemma drop_q_In e q x : In x (drop_q e q) -> In x q.
Proof. induction q as [|y q IH]; cbn [drop_q]; [auto|]. destruct (q_ep y =? e); simpl; [auto|]. intros [<-|H]; auto. Qed.
Lemma drop_q_len e q : length (drop_q e q) <= length q.
Proof. induction q as [|y q IH]; cbn [drop_q length]; [auto|]. destruct (q_ep y =? e); cbn [length]; lia. Qed.
Lemma push_q_len q x : length q <= MAX_QUEUES -> length (push_q q x) <= MAX_QUEUES.
Proof.
  unfold push_q, MAX_QUEUES. intros H. rewrite app_length. cbn [length]. destruct (5 <=? length q) eqn:E.
  - destruct q; cbn [tl length] in *; lia.
  - apply Nat.leb_gt in E. lia.
Qed.
Lemma push_q_In q x y : In y (push_q q x) -> In y q \/ y = x.
Proof.
  unfold push_q. intros H. apply in_app_iff in H as [H|[<-|[]]]; auto. left.
  destruct (MAX_QUEUES <=? length q); auto. destruct q; simpl in *; auto.
Qed.
Lemma vloop_app E r evs1 : forall s evs2, vloop E r s (evs1 ++ evs2) =
  match vloop E r s evs1 with (s1, true) => (s1, true) | (s1, false) => vloop E r s1 evs2 end.
Proof.
  induction evs1 as [|e evs1 IH]; intros s evs2; cbn [app vloop]; [auto|]. destruct (vturn E r s e) as [s1 [|]]; auto.
Qed.

(* ---------- what the database holds ---------- *)

Lemma save_cert_verify E d w k c : certs_verify E d -> (exists r, k = ee_dig E r /\ verify_with_cert E r c = true) ->
  certs_verify E (snd (db_save_cert w d k c)).
Proof.
  intros H Hc. unfold db_save_cert. destruct (cget (db_certs d) k); [auto|]. destruct w; [|auto]. cbn [snd].
  intros k' c' Hin. cbn [db_certs] in Hin. destruct Hin as [Hx|Hx]; [injection Hx as <- <-; auto|apply H in Hx; auto].
Qed.
Lemma save_record_certs d w r : db_certs (snd (db_save_record w d r)) = db_certs d.
Proof. unfold db_save_record. destruct (er_epoch r <? length (db_recs d)); auto. destruct (negb _); auto. destruct w; auto. Qed.
Lemma save_verify E d w1 w2 r c : certs_verify E d -> verify_with_cert E r c = true -> certs_verify E (snd (db_save E w1 w2 d r c)).
Proof.
  intros H Hv. unfold db_save. pose proof (save_record_certs d w1 r) as Hc.
  destruct (db_save_record w1 d r) as [[|] d1]; cbn [snd] in *.
  - apply save_cert_verify; [|eauto]. intros k c' Hin. rewrite Hc in Hin. apply H in Hin. auto.
  - intros k c' Hin. rewrite Hc in Hin. apply H in Hin. auto.
Qed.
Lemma validated E d e r c : validate_downloaded E d e r c = EValid -> verify_with_cert E r c = true /\ er_epoch r = e.
Proof.
  unfold validate_downloaded. destruct (if e =? 0 then _ else _) as [[p com]|]; [|discriminate]. unfold validate_against_anchor.
  destruct ((er_epoch r =? e) && N.eqb p (er_parent r) && committee_compatible r com && verify_with_cert E r c) eqn:Ea; [|discriminate].
  rewrite !andb_true_iff in Ea. destruct Ea as [[[A1 _] _] A4]. apply Nat.eqb_eq in A1. auto.
Qed.
Lemma ingest_verify E d e r c w1 w2 : certs_verify E d -> certs_verify E (ingest E d e r c w1 w2).
Proof.
  intros H. unfold ingest. destruct (validate_downloaded E d e r c) eqn:Ev; auto. apply validated in Ev as [Ev _]. apply save_verify; auto.
Qed.
Lemma recover_verify E w1 w2 e answers : forall d, certs_verify E d -> certs_verify E (recover E w1 w2 e d answers).
Proof.
  induction answers as [|[[x c]|] answers IH]; intros d H; cbn [recover]; auto.
  destruct (validate_downloaded E d e x c) eqn:Ev; auto. apply validated in Ev as [Ev _]. apply save_verify; auto.
Qed.
Lemma vfinish_verified E r st c : vfinish E r st = Some c -> ec_hash c = ee_dig E r /\ verify_with_cert E r c = true.
Proof.
  unfold vfinish. destruct (vs_reached st); [|discriminate]. destruct (ee_agg E (vs_sigs st)) as [a|]; [|discriminate]. cbv zeta.
  destruct (verify_with_cert E r (mk_ecert (ee_dig E r) a (vs_bits st))) eqn:Ev; [|discriminate]. intros H. injection H as <-. auto.
Qed.
Lemma finish_verify E w1 w2 r st answers d : certs_verify E d -> certs_verify E (finish E w1 w2 r st answers d).
Proof.
  intros H. unfold finish. destruct (vs_reached st).
  - destruct (vfinish E r st) as [c|] eqn:Ef; auto. apply vfinish_verified in Ef as [F1 F2]. apply save_cert_verify; auto. rewrite F1. eauto.
  - apply recover_verify; auto.
Qed.

(* ---------- the invariant of every history ---------- *)

Record ysafe (E : eenv) (V : venv) (s : vsys) : Prop := {
  ys_bus : Forall (vgood V) (y_bus s);
  ys_buf : forall i, Forall (vgood V) (y_buf s i);
  ys_tasks : Forall (fun t => cinv E (vsig V) (t_rec t) (t_st t)) (y_tasks s);
  ys_certs : certs_verify E (y_db s);
  ys_five : length (y_q s) <= MAX_QUEUES;
  ys_seen : length (y_seen s) <= MAX_EPOCH_VOTES }.

Lemma set_buf_good V b i l : (forall j, Forall (vgood V) (b j)) -> Forall (vgood V) l -> forall j, Forall (vgood V) (set_buf b i l j).
Proof. intros H Hl j. unfold set_buf. destruct (j =? i); auto. Qed.

Lemma on_gossip_safe E V topic v s : ysafe E V s -> ysafe E V (snd (on_gossip E V topic v s)).
Proof.
  intros H. unfold on_gossip. destruct (negb topic); [auto|]. destruct (epoch_by_number E (y_db s) (v_epoch v)) as [[r [c|]]|]; [auto| |auto].
  destruct (negb (N.eqb (ee_dig E r) (v_hash v))); [auto|]. destruct (negb (memN (v_key v) (er_com r))); [auto|].
  destruct (seen (y_seen s) (v_key v, v_epoch v)); [auto|].
  destruct (ve_ok V (v_hash v) (v_key v) (v_sig v)) eqn:Ek; cbn [negb]; [|auto].
  destruct H as [H1 H2 H3 H4 H5 H6]. cbn [snd].
  constructor; cbn [y_bus y_buf y_tasks y_db y_q y_seen]; auto; [|apply record_vote_bound; auto].
  apply Forall_app. split; auto.
Qed.
Lemma route_safe E V v s : vgood V v -> ysafe E V s -> ysafe E V (route v s).
Proof.
  intros Hv H. unfold route. destruct (find_q (v_epoch v) (y_q s)) as [x|].
  - destruct (listening s x); destruct H as [H1 H2 H3 H4 H5 H6]; constructor; cbn [y_bus y_buf y_tasks y_db y_q y_seen]; auto.
    + apply set_buf_good; auto. apply Forall_app. split; auto.
    + pose proof (drop_q_len (v_epoch v) (y_q s)). lia.
  - cbv zeta. assert (Ho : ysafe E V (mk_vsys (y_db s) (y_dur s) (y_seen s) (y_bus s) (y_watch s) (push_q (y_q s) (mk_qent (v_epoch v) (y_next s) true))
                        (set_buf (y_buf s) (y_next s) [v]) (S (y_next s)) (y_tasks s))).
    { destruct H as [H1 H2 H3 H4 H5 H6]. constructor; cbn [y_bus y_buf y_tasks y_db y_q y_seen]; auto.
      - apply set_buf_good; auto.
      - apply push_q_len; auto. }
    destruct (last (map Some (y_q s)) None) as [l|]; [|auto]. destruct (v_epoch v =? S (q_ep l)); auto.
Qed.
Lemma on_route_safe E V s : ysafe E V s -> ysafe E V (on_route s).
Proof.
  intros H. unfold on_route. destruct (y_bus s) as [|v b] eqn:Eb; [auto|]. destruct H as [H1 H2 H3 H4 H5 H6].
  rewrite Eb in H1. inversion H1; subst. apply route_safe; [auto|]. constructor; auto.
Qed.
Lemma take_channel_safe E V e s o s1 : ysafe E V s -> take_channel e s = (o, s1) -> ysafe E V s1.
Proof.
  intros H. unfold take_channel. destruct (find_q e (y_q s)) as [x|].
  - destruct (q_rx x); intros Hx; injection Hx as <- <-; [|auto]. destruct H as [H1 H2 H3 H4 H5 H6].
    constructor; cbn [y_bus y_buf y_tasks y_db y_q y_seen]; auto. rewrite map_length. auto.
  - intros Hx; injection Hx as <- <-. destruct H as [H1 H2 H3 H4 H5 H6].
    constructor; cbn [y_bus y_buf y_tasks y_db y_q y_seen]; auto; [apply set_buf_good; auto|apply push_q_len; auto].
Qed.
Lemma on_record_safe E V s : (forall d, ve_ok V d (ve_me V) (ve_sign V d) = true) -> ysafe E V s -> ysafe E V (snd (on_record E V s)).
Proof.
  intros Hs H. unfold on_record. destruct (y_watch s) as [r|]; [|auto]. cbv zeta.
  match goal with |- context[take_channel ?a ?b] => destruct (take_channel a b) as [[i|] s1] eqn:Et end;
    (apply (take_channel_safe E V) in Et; [|destruct H; constructor; auto]); [|auto].
  destruct Et as [H1 H2 H3 H4 H5 H6]. cbn [snd]. constructor; cbn [y_bus y_buf y_tasks y_db y_q y_seen]; auto.
  constructor; auto. cbn [t_rec t_st]. apply vstart_cinv. intros _. apply Hs.
Qed.
Lemma put_task_Forall (P : vtask -> Prop) i st run l :
  Forall P l -> (forall t, In t l -> t_id t = i -> P (mk_vtask (t_id t) (t_rec t) st run)) -> Forall P (put_task i st run l).
Proof.
  intros H Hp. unfold put_task. apply Forall_forall. intros x Hx. apply in_map_iff in Hx as (t & <- & Ht).
  rewrite Forall_forall in H. destruct (t_id t =? i) eqn:E; [apply Nat.eqb_eq in E|]; auto.
Qed.
(* tasks never share a channel *)
Definition ids_ok (s : vsys) : Prop :=
  NoDup (map t_id (y_tasks s)) /\ (forall t, In t (y_tasks s) -> t_id t < y_next s) /\ (forall x, In x (y_q s) -> q_id x < y_next s) /\
  NoDup (map q_id (y_q s)) /\
  (forall x, In x (y_q s) -> q_rx x = true -> forall t, In t (y_tasks s) -> t_id t <> q_id x).
Lemma find_task_unique s i t t' : NoDup (map t_id (y_tasks s)) -> find (fun t => t_id t =? i) (y_tasks s) = Some t ->
  In t' (y_tasks s) -> t_id t' = i -> t' = t.
Proof.
  intros Hn Hf Hi He. apply find_some in Hf as [Hf Hf']. apply Nat.eqb_eq in Hf'.
  revert Hn Hf Hi. generalize (y_tasks s). induction l as [|x l IH]; cbn [map]; intros Hn Hf Hi; [destruct Hf|].
  inversion Hn as [|? ? N1 N2]; subst. destruct Hf as [<-|Hf], Hi as [<-|Hi]; auto.
  - exfalso. apply N1. rewrite <- He. apply in_map. auto.
  - exfalso. apply N1. rewrite He. apply in_map. auto.
Qed.
Lemma on_task_safe E V i tmo w1 w2 answers s : ids_ok s -> ysafe E V s -> ysafe E V (snd (on_task E V i tmo w1 w2 answers s)).
Proof.
  intros [Hid _] H. unfold on_task. destruct (find (fun t => t_id t =? i) (y_tasks s)) as [t|] eqn:Ef; [|auto].
  destruct (negb (t_run t)); [auto|].
  assert (Hc : cinv E (vsig V) (t_rec t) (t_st t)).
  { apply find_some in Ef as [Ef _]. destruct H as [_ _ H3 _ _ _]. rewrite Forall_forall in H3. auto. }
  assert (Hgen : forall ev b, (forall v, ev = VVote v -> vgood V v) -> (forall j, Forall (vgood V) (b j)) ->
    forall st fin, vturn E (t_rec t) (t_st t) ev = (st, fin) ->
    ysafe E V (mk_vsys (if fin then finish E w1 w2 (t_rec t) st answers (y_db s) else y_db s) (y_dur s) (y_seen s) (y_bus s) (y_watch s)
                 (y_q s) b (y_next s) (put_task i st (negb fin) (y_tasks s)))).
  { intros ev b Hev Hb st fin Ht. destruct H as [H1 H2 H3 H4 H5 H6]. constructor; cbn [y_bus y_buf y_tasks y_db y_q y_seen]; auto.
    - apply put_task_Forall; auto. intros t' Hi He. rewrite (find_task_unique s i t t' Hid Ef Hi He). cbn [t_rec t_st].
      eapply vturn_cinv; eauto. intros v -> _. apply Hev; auto.
    - destruct fin; auto. apply finish_verify; auto. }
  destruct H as [H1 H2 H3 H4 H5 H6] eqn:EH.
  destruct tmo; [|destruct (y_buf s i) as [|v rest] eqn:Eb; [destruct (existsb (fun x => q_id x =? i) (y_q s))|]]; cbn [snd].
  - destruct (vturn E (t_rec t) (t_st t) VTimeout) as [st fin] eqn:Et. cbn [snd]. eapply Hgen; eauto. intros v Hv; discriminate.
  - auto.
  - destruct (vturn E (t_rec t) (t_st t) VClosed) as [st fin] eqn:Et. cbn [snd]. eapply Hgen; eauto. intros v Hv; discriminate.
  - destruct (vturn E (t_rec t) (t_st t) (VVote v)) as [st fin] eqn:Et. cbn [snd].
    pose proof (H2 i) as Hi. rewrite Eb in Hi. inversion Hi; subst. eapply Hgen; eauto.
    + intros v' Hv. injection Hv as <-. auto.
    + apply set_buf_good; auto.
Qed.

(* ---------- ids ---------- *)
Lemma NoDup_push q x : NoDup (map q_id q) -> (forall y, In y q -> q_id y <> q_id x) -> NoDup (map q_id (push_q q x)).
Proof.
  intros Hn Hx. unfold push_q. rewrite map_app. cbn [map].
  assert (H : NoDup (map q_id (if MAX_QUEUES <=? length q then tl q else q)) /\ incl (if MAX_QUEUES <=? length q then tl q else q) q).
  { destruct (MAX_QUEUES <=? length q); [|split; auto; apply incl_refl]. destruct q as [|y q]; [split; auto; apply incl_refl|].
    inversion Hn; subst. split; auto. intros z Hz. simpl in *; auto. }
  destruct H as [H1 H2]. apply NoDup_snoc; auto. intros Hi. apply in_map_iff in Hi as (y & Y1 & Y2). apply (Hx y); auto.
Qed.
Lemma drop_q_NoDup e q : NoDup (map q_id q) -> NoDup (map q_id (drop_q e q)).
Proof.
  induction q as [|y q IH]; cbn [drop_q map]; [auto|]. intros Hn. inversion Hn; subst. destruct (q_ep y =? e); auto.
  cbn [map]. constructor; auto. intros Hi. apply in_map_iff in Hi as (z & Z1 & Z2). apply drop_q_In in Z2.
  match goal with H : ~ In _ _ |- _ => apply H end. rewrite <- Z1. apply in_map; auto.
Qed.
Lemma push_ids s x : ids_ok s -> q_id x = y_next s ->
  forall b w d n sn bu, ids_ok (mk_vsys d n sn bu w (push_q (y_q s) x) b (S (y_next s)) (y_tasks s)).
Proof.
  intros (I1 & I2 & I3 & I4 & I5) Hx b w d n sn bu. unfold ids_ok. cbn [y_tasks y_next y_q].
  split; [auto|]. split; [intros t Ht; apply I2 in Ht; lia|]. split; [|split].
  - intros y Hy. apply push_q_In in Hy as [Hy| ->]; [apply I3 in Hy; lia|lia].
  - apply NoDup_push; auto. intros y Hy He. apply I3 in Hy. lia.
  - intros y Hy Hr t Ht. apply push_q_In in Hy as [Hy| ->]; [auto|]. apply I2 in Ht. lia.
Qed.
Lemma route_ids v s : ids_ok s -> ids_ok (route v s).
Proof.
  intros H. unfold route. destruct (find_q (v_epoch v) (y_q s)) as [x|] eqn:Ef.
  - destruct (listening s x); [exact H|]. destruct H as (I1 & I2 & I3 & I4 & I5). unfold ids_ok. cbn [y_tasks y_next y_q].
    split; [auto|]. split; [auto|]. split; [intros y Hy; apply drop_q_In in Hy; auto|]. split; [apply drop_q_NoDup; auto|].
    intros y Hy. apply drop_q_In in Hy. auto.
  - cbv zeta. destruct (last (map Some (y_q s)) None) as [l|]; [destruct (v_epoch v =? S (q_ep l)); [|auto]|]; apply push_ids; auto.
Qed.
Lemma take_channel_ids e s o s1 : ids_ok s -> take_channel e s = (o, s1) ->
  ids_ok s1 /\ y_tasks s1 = y_tasks s /\ forall i, o = Some i -> i < y_next s1 /\ (forall t, In t (y_tasks s) -> t_id t <> i) /\ (forall x, In x (y_q s1) -> q_rx x = true -> q_id x <> i).
Proof.
  intros H. unfold take_channel. destruct (find_q e (y_q s)) as [x|] eqn:Ef.
  - apply find_q_In in Ef as [Ef _]. destruct (q_rx x) eqn:Ex; intros Hx; injection Hx as <- <-; [|split; auto; split; auto; intros i Hi; discriminate].
    destruct H as (I1 & I2 & I3 & I4 & I5). cbn [y_tasks y_next y_q]. split; [|split; auto].
    + unfold ids_ok. cbn [y_tasks y_next y_q]. split; [auto|]. split; [auto|]. split; [|split].
      * intros y Hy. apply in_map_iff in Hy as (z & <- & Hz). destruct (q_id z =? q_id x); cbn [q_id]; auto.
      * rewrite map_map. erewrite map_ext; [exact I4|]. intros z. cbv beta. destruct (q_id z =? q_id x); auto.
      * intros y Hy Hr t Ht. apply in_map_iff in Hy as (z & <- & Hz). destruct (q_id z =? q_id x) eqn:Ez; cbn [q_rx q_id] in *; [discriminate|auto].
    + intros i Hi. injection Hi as <-. split; [auto|]. split; [auto|].
      intros y Hy Hr. apply in_map_iff in Hy as (z & <- & Hz). destruct (q_id z =? q_id x) eqn:Ez; cbn [q_rx q_id] in *; [discriminate|].
      apply Nat.eqb_neq; auto.
  - intros Hx; injection Hx as <- <-. split; [apply push_ids; auto|]. split; [auto|]. cbn [y_next y_q]. intros i Hi. injection Hi as <-.
    destruct H as (I1 & I2 & I3 & I4 & I5). split; [lia|]. split; [intros t Ht; apply I2 in Ht; lia|].
    intros y Hy Hr. apply push_q_In in Hy as [Hy| ->]; [apply I3 in Hy; lia|cbn [q_rx] in Hr; discriminate].
Qed.
Lemma put_task_ids i st run l : map t_id (put_task i st run l) = map t_id l.
Proof. unfold put_task. rewrite map_map. apply map_ext. intros t. destruct (t_id t =? i); auto. Qed.
Lemma put_task_In i st run l t : In t (put_task i st run l) -> exists t', In t' l /\ t_id t' = t_id t /\ t_rec t' = t_rec t.
Proof. intros H. apply in_map_iff in H as (t' & <- & H). exists t'. destruct (t_id t' =? i); auto. Qed.
Lemma ystep_ids E V s g : ids_ok s -> ids_ok (snd (ystep E V s g)).
Proof.
  intros H. destruct g as [topic v| | |i tmo w1 w2 answers|r w wp|e r c w1 w2|r| |n keep]; cbn [ystep snd].
  - unfold on_gossip. destruct (negb topic); [auto|]. destruct (epoch_by_number E (y_db s) (v_epoch v)) as [[r [c|]]|]; auto.
    repeat match goal with |- context[if ?b then _ else _] => destruct b; auto end.
  - unfold on_route. destruct (y_bus s) as [|v b]; [auto|]. apply route_ids; auto.
  - unfold on_record. destruct (y_watch s) as [r|]; [|auto]. cbv zeta.
    match goal with |- context[take_channel ?a ?b] => destruct (take_channel a b) as [[i|] s1] eqn:Et end;
      (apply take_channel_ids in Et; [|exact H]); destruct Et as (T1 & T2 & T3); cbn [snd]; [|auto].
    destruct (T3 i eq_refl) as (T4 & T5 & T6). destruct T1 as (I1 & I2 & I3 & I4 & I5). cbn [y_tasks] in T2.
    unfold ids_ok. cbn [y_tasks y_next y_q map t_id]. rewrite T2 in *. split; [constructor; auto|]. 
    + intros Hi. apply in_map_iff in Hi as (t & Y1 & Y2). apply (T5 t); auto.
    + split; [intros t [<-|Ht]; auto|]. split; [auto|]. split; [auto|].
      intros x Hx Hr t [<-|Ht]; [cbn [t_id]; intros Hi; apply (T6 x Hx Hr); auto|apply I5; auto].
  - unfold on_task. destruct (find _ (y_tasks s)) as [t|]; [|auto]. destruct (negb (t_run t)); [auto|].
    assert (Hg : forall db b st run, ids_ok (mk_vsys db (y_dur s) (y_seen s) (y_bus s) (y_watch s) (y_q s) b (y_next s) (put_task i st run (y_tasks s)))).
    { intros db b st run. destruct H as (I1 & I2 & I3 & I4 & I5). unfold ids_ok. cbn [y_tasks y_next y_q].
      rewrite put_task_ids. split; [auto|]. split; [|split; [auto|split; [auto|]]].
      - intros t' Ht. apply put_task_In in Ht as (t2 & Y1 & Y2 & _). rewrite <- Y2. auto.
      - intros x Hx Hr t' Ht. apply put_task_In in Ht as (t2 & Y1 & Y2 & _). rewrite <- Y2. auto. }
    destruct tmo; [|destruct (y_buf s i) as [|v rest]; [destruct (existsb (fun x => q_id x =? i) (y_q s)); [auto|]|]];
      match goal with |- context[vturn ?a ?b ?c ?d] => destruct (vturn a b c d) as [st fin] end; cbn [snd]; apply Hg.
  - unfold on_close. destruct (have_record E (y_db s) (er_epoch r)); [exact H|]. destruct (db_save_record w (y_db s) r) as [[|] d]; [|exact H].
    destruct wp; exact H.
  - exact H.
  - exact H.
  - exact H.
  - unfold on_restart. cbv zeta. unfold ids_ok. cbn [y_tasks y_next y_q map]. split; [constructor|]. split; [intros t []|]. split; [intros t []|]. split; [constructor|intros x []].
Qed.
Lemma ystep_safe E V s g : (forall d, ve_ok V d (ve_me V) (ve_sign V d) = true) -> ids_ok s -> ysafe E V s -> ysafe E V (snd (ystep E V s g)).
Proof.
  intros Hs Hid H. destruct g as [topic v| | |i tmo w1 w2 answers|r w wp|e r c w1 w2|r| |n keep]; cbn [ystep snd].
  - apply on_gossip_safe; auto.
  - apply on_route_safe; auto.
  - apply on_record_safe; auto.
  - apply on_task_safe; auto.
  - unfold on_close. destruct (have_record E (y_db s) (er_epoch r)); [destruct H; constructor; auto|].
    pose proof (save_record_certs (y_db s) w r) as Hc. destruct (db_save_record w (y_db s) r) as [[|] d]; cbn [snd] in Hc; [destruct wp|];
      destruct H as [H1 H2 H3 H4 H5 H6]; constructor; cbn [set_db y_bus y_buf y_tasks y_db y_q y_seen]; auto; intros k c Hk; rewrite Hc in Hk; auto.
  - destruct H as [H1 H2 H3 H4 H5 H6]; constructor; cbn [set_db y_bus y_buf y_tasks y_db y_q y_seen]; auto. apply ingest_verify; auto.
  - destruct H as [H1 H2 H3 H4 H5 H6]; constructor; cbn [set_db y_bus y_buf y_tasks y_db y_q y_seen]; auto.
    unfold db_save_dummy. destruct (er_epoch r =? 0); cbn [snd]; auto.
  - destruct H as [H1 H2 H3 H4 H5 H6]; constructor; cbn [set_db y_bus y_buf y_tasks y_db y_q y_seen]; auto.
  - unfold on_restart. cbv zeta. destruct H as [H1 H2 H3 H4 H5 H6]. constructor; cbn [y_bus y_buf y_tasks y_db y_q y_seen length]; auto; try lia.
    intros k c Hk. unfold seed_mark, first_missing in Hk. cbn [snd db_certs] in Hk. apply filter_In in Hk as [Hk _]. auto.
Qed.
Lemma yrun_cons E V s g gs : snd (yrun E V s (g :: gs)) = snd (yrun E V (snd (ystep E V s g)) gs).
Proof. cbn [yrun]. destruct (ystep E V s g) as [o s1]. cbn [snd]. destruct (yrun E V s1 gs); auto. Qed.
Lemma yrun_ids E V gs : forall s, ids_ok s -> ids_ok (snd (yrun E V s gs)).
Proof. induction gs as [|g gs IH]; intros s H; [auto|]. rewrite yrun_cons. apply IH, ystep_ids; auto. Qed.
Lemma yrun_safe E V gs : (forall d, ve_ok V d (ve_me V) (ve_sign V d) = true) ->
  forall s, ids_ok s -> ysafe E V s -> ysafe E V (snd (yrun E V s gs)).
Proof. intros Hs. induction gs as [|g gs IH]; intros s Hi H; [auto|]. rewrite yrun_cons. apply IH; [apply ystep_ids|apply ystep_safe]; auto. Qed.
Lemma new_ids : ids_ok vsys_new.
Proof. unfold ids_ok. cbn. split; [constructor|]. split; [intros t []|]. split; [intros t []|]. split; [constructor|intros x []]. Qed.
Lemma new_safe E V : ysafe E V vsys_new.
Proof. constructor; cbn; auto; try (unfold MAX_QUEUES, MAX_EPOCH_VOTES; lia). intros k c []. Qed.
