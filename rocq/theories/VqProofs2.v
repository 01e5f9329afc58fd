(* A node signs one record per epoch, across crashes. *)
From Verif Require Import Util EpochModel EpochSpec EpochProofs VqModel VqSpec VqProofs.

Definition aligned (l : list erec) : Prop := forall e r, nth_error l e = Some r -> er_epoch r = e.
(* a record that was handed to the collector is on disk under its epoch *)
Definition kept (s : vsys) (r : erec) : Prop :=
  er_epoch r <> 0 -> nth_error (db_recs (y_db s)) (er_epoch r) = Some r /\ er_epoch r < y_dur s.
Record pinv (s : vsys) : Prop := {
  p_al : aligned (db_recs (y_db s));
  p_dur : y_dur s <= length (db_recs (y_db s));
  p_dummy : forall r, db_dummy (y_db s) = Some r -> er_epoch r = 0;
  p_watch : forall r, y_watch s = Some r -> kept s r;
  p_tasks : forall t, In t (y_tasks s) -> kept s (t_rec t) }.


Lemma snoc_aligned l r : aligned l -> er_epoch r = length l -> aligned (l ++ [r]).
Proof.
  intros H Hr e x Hx. destruct (Nat.lt_ge_cases e (length l)) as [Hl|Hl].
  - rewrite nth_error_app1 in Hx by auto. auto.
  - rewrite nth_error_app2 in Hx by auto. destruct (e - length l) as [|n] eqn:En; cbn in Hx; [injection Hx as <-; lia|destruct n; discriminate].
Qed.
(* records only grow *)
Definition grows (l l' : list erec) : Prop := exists t, l' = l ++ t.
Lemma grows_refl l : grows l l.
Proof. exists []. rewrite app_nil_r. auto. Qed.
Lemma grows_nth l l' e r : grows l l' -> nth_error l e = Some r -> nth_error l' e = Some r.
Proof. intros [t ->] H. rewrite nth_error_app1; auto. apply nth_error_Some. congruence. Qed.
Lemma grows_len l l' : grows l l' -> length l <= length l'.
Proof. intros [t ->]. rewrite app_length. lia. Qed.

Lemma save_record_grows d w r : aligned (db_recs d) ->
  grows (db_recs d) (db_recs (snd (db_save_record w d r))) /\ aligned (db_recs (snd (db_save_record w d r))) /\ db_dummy (snd (db_save_record w d r)) = db_dummy d.
Proof.
  intros H. unfold db_save_record. destruct (er_epoch r <? length (db_recs d)); [split; [apply grows_refl|auto]|].
  destruct (er_epoch r =? length (db_recs d)) eqn:Ee; cbn [negb]; [|split; [apply grows_refl|auto]].
  destruct w; cbn [snd db_recs db_dummy]; [|split; [apply grows_refl|auto]]. apply Nat.eqb_eq in Ee.
  split; [eexists; reflexivity|]. split; auto. apply snoc_aligned; auto.
Qed.
Lemma save_cert_same d w k c : db_recs (snd (db_save_cert w d k c)) = db_recs d /\ db_dummy (snd (db_save_cert w d k c)) = db_dummy d.
Proof. unfold db_save_cert. destruct (cget (db_certs d) k); auto. destruct w; auto. Qed.
Lemma save_grows E d w1 w2 r c : aligned (db_recs d) ->
  grows (db_recs d) (db_recs (snd (db_save E w1 w2 d r c))) /\ aligned (db_recs (snd (db_save E w1 w2 d r c))) /\ db_dummy (snd (db_save E w1 w2 d r c)) = db_dummy d.
Proof.
  intros H. unfold db_save. destruct (save_record_grows d w1 r H) as (G1 & G2 & G3). destruct (db_save_record w1 d r) as [[|] d1]; cbn [snd] in *; [|auto].
  destruct (save_cert_same d1 w2 (ee_dig E r) c) as [S1 S2]. rewrite S1, S2. auto.
Qed.
Lemma recover_grows E w1 w2 e answers : forall d, aligned (db_recs d) ->
  grows (db_recs d) (db_recs (recover E w1 w2 e d answers)) /\ aligned (db_recs (recover E w1 w2 e d answers)) /\ db_dummy (recover E w1 w2 e d answers) = db_dummy d.
Proof.
  induction answers as [|[[x c]|] answers IH]; intros d H; cbn [recover]; [split; [apply grows_refl|auto]| |auto].
  destruct (validate_downloaded E d e x c); auto. apply save_grows; auto.
Qed.
Lemma finish_grows E w1 w2 r st answers d : aligned (db_recs d) ->
  grows (db_recs d) (db_recs (finish E w1 w2 r st answers d)) /\ aligned (db_recs (finish E w1 w2 r st answers d)) /\ db_dummy (finish E w1 w2 r st answers d) = db_dummy d.
Proof.
  intros H. unfold finish. destruct (vs_reached st); [|apply recover_grows; auto].
  destruct (vfinish E r st) as [c|]; [|split; [apply grows_refl|auto]]. destruct (save_cert_same d w2 (ec_hash c) c) as [S1 S2].
  rewrite S1, S2. split; [apply grows_refl|auto].
Qed.

Lemma pinv_grow s s' : pinv s -> grows (db_recs (y_db s)) (db_recs (y_db s')) -> aligned (db_recs (y_db s')) -> db_dummy (y_db s') = db_dummy (y_db s) ->
  y_dur s' = y_dur s -> y_watch s' = y_watch s -> (forall t, In t (y_tasks s') -> exists t', In t' (y_tasks s) /\ t_rec t' = t_rec t) -> pinv s'.
Proof.
  intros [P1 P2 P3 P4 P5] Hg Ha Hd Hu Hw Ht.
  assert (Hk : forall r, kept s r -> kept s' r). { intros r Hk H0. destruct (Hk H0). rewrite Hu. split; auto. eapply grows_nth; eauto. }
  constructor; auto.
  - rewrite Hu. apply grows_len in Hg. lia.
  - rewrite Hd. auto.
  - intros r Hr. rewrite Hw in Hr. auto.
  - intros t Hin. destruct (Ht t Hin) as (t' & T1 & T2). rewrite <- T2. auto.
Qed.
Lemma record_by_epoch_aligned s e r : pinv s -> record_by_epoch (y_db s) e = Some r -> er_epoch r = e.
Proof.
  intros [P1 _ P3 _ _]. unfold record_by_epoch. destruct e as [|e]; [destruct (db_recs (y_db s)) as [|a l] eqn:Ed; [apply P3|]|]; intros Hx; exact (P1 _ _ Hx).
Qed.

(* the votes a step publishes are votes on kept records *)
Definition out_kept (E : eenv) (V : venv) (s : vsys) (o : list vout) : Prop :=
  forall v, In (OVote v) o -> exists r, v = own_vote E V r /\ kept s r /\ In (ve_me V) (er_com r).
Lemma publish_kept E V s r : kept s r -> out_kept E V s (publish E V r).
Proof.
  intros H v Hv. unfold publish in Hv. destruct (memN (ve_me V) (er_com r)) eqn:Em; [|destruct Hv].
  destruct Hv as [Hv|[]]. injection Hv as <-. exists r. split; auto. split; auto. apply memN_In; auto.
Qed.

Lemma ystep_pinv E V s g : pinv s -> close_flushed E s g ->
  pinv (snd (ystep E V s g)) /\ out_kept E V (snd (ystep E V s g)) (fst (ystep E V s g)) /\ (forall r, kept s r -> kept (snd (ystep E V s g)) r).
Proof.
  intros H Hc.
  assert (Hnone : forall s', out_kept E V s' []) by (intros s' v []).
  assert (Hsame : forall s' o, db_recs (y_db s') = db_recs (y_db s) -> db_dummy (y_db s') = db_dummy (y_db s) -> y_dur s' = y_dur s -> y_watch s' = y_watch s ->
     (forall t, In t (y_tasks s') -> exists t', In t' (y_tasks s) /\ t_rec t' = t_rec t) -> out_kept E V s' o ->
     pinv s' /\ out_kept E V s' o /\ (forall r, kept s r -> kept s' r)).
  { intros s' o R1 R2 R3 R4 R5 R6. split; [|split; [auto|]].
    - eapply pinv_grow; eauto; rewrite R1; [apply grows_refl|apply (p_al s); auto].
    - intros r Hk H0. unfold kept in Hk. rewrite R1, R3. auto. }
  assert (Hid : forall t, In t (y_tasks s) -> exists t', In t' (y_tasks s) /\ t_rec t' = t_rec t) by eauto.
  destruct g as [topic v| | |i tmo w1 w2 answers|r w wp|e r c w1 w2|r| |n keep]; cbn [ystep fst snd].
  - assert (Hr : forall e s', s' = s -> pinv s' /\ out_kept E V s' [ORefuse e] /\ (forall r, kept s r -> kept s' r)).
    { intros e s' ->. split; [auto|]. split; [|auto]. intros v' [Hv|[]]; discriminate. }
    unfold on_gossip. destruct (negb topic); [apply Hr; auto|]. destruct (epoch_by_number E (y_db s) (v_epoch v)) as [[r [c|]]|]; cbn [fst snd]; [apply Hsame; auto| |apply Hsame; auto].
    destruct (negb (N.eqb (ee_dig E r) (v_hash v))); [apply Hr; auto|]. destruct (negb (memN (v_key v) (er_com r))); [apply Hr; auto|].
    destruct (seen (y_seen s) (v_key v, v_epoch v)); cbn [fst snd]; [apply Hsame; auto|].
    destruct (negb (ve_ok V (v_hash v) (v_key v) (v_sig v))); [apply Hr; auto|]. apply Hsame; auto.
  - unfold on_route. destruct (y_bus s) as [|v b]; [apply Hsame; auto|]. unfold route. cbn [y_q y_tasks].
    destruct (find_q (v_epoch v) (y_q s)) as [x|]; [match goal with |- context[if ?b then _ else _] => destruct b end; apply Hsame; auto|].
    cbv zeta. destruct (last (map Some (y_q s)) None) as [l|]; [destruct (v_epoch v =? S (q_ep l))|]; apply Hsame; auto.
  - unfold on_record. destruct (y_watch s) as [r|] eqn:Ew; [|apply Hsame; auto]. cbv zeta.
    assert (Hkr : kept s r) by (apply (p_watch s); auto).
    match goal with |- context[take_channel ?a ?b] => destruct (take_channel a b) as [o s1] eqn:Et end.
    assert (Hs1 : y_db s1 = y_db s /\ y_dur s1 = y_dur s /\ y_watch s1 = None /\ y_tasks s1 = y_tasks s).
    { unfold take_channel in Et. cbn [y_q] in Et. destruct (find_q (er_epoch r) (y_q s)) as [x|]; [destruct (q_rx x)|]; injection Et as <- <-; auto. }
    destruct Hs1 as (S1 & S2 & S3 & S4).
    assert (Hk1 : forall s', y_db s' = y_db s -> y_dur s' = y_dur s -> forall x, kept s x -> kept s' x).
    { intros s' D1 D2 x Hx H0. unfold kept in Hx. rewrite D1, D2. auto. }
    destruct H as [P1 P2 P3 P4 P5].
    destruct o as [i|]; cbn [fst snd].
    + assert (Hk2 : forall x, kept s x -> kept (mk_vsys (y_db s1) (y_dur s1) (y_seen s1) (y_bus s1) (y_watch s1) (y_q s1) (y_buf s1) (y_next s1)
               (mk_vtask i r (vstart r (ve_me V) (ve_sign V (ee_dig E r))) true :: y_tasks s1)) x) by (apply Hk1; auto).
      split; [|split; [|auto]].
      * constructor; cbn [y_db y_dur y_watch y_tasks].
        -- rewrite S1. auto.
        -- rewrite S1, S2. auto.
        -- rewrite S1. auto.
        -- rewrite S3. intros x Hx; discriminate.
        -- intros t [<-|Ht]; [cbn [t_rec]|]; apply Hk2; auto. apply P5. rewrite <- S4. auto.
      * apply publish_kept. auto.
    + split; [|split; [auto|auto]]. constructor; rewrite ?S1, ?S2; auto; [rewrite S3; intros x Hx; discriminate|].
      intros t Ht. rewrite S4 in Ht. apply Hk1; auto.
  - unfold on_task. destruct (find (fun t => t_id t =? i) (y_tasks s)) as [t|] eqn:Ef; [|apply Hsame; auto]. destruct (negb (t_run t)); [apply Hsame; auto|].
    assert (Hg : forall ev b, pinv (snd (let '(st, fin) := vturn E (t_rec t) (t_st t) ev in
        (if fin then [] else if tmo then publish E V (t_rec t) else [],
         mk_vsys (if fin then finish E w1 w2 (t_rec t) st answers (y_db s) else y_db s) (y_dur s) (y_seen s) (y_bus s) (y_watch s)
                 (y_q s) b (y_next s) (put_task i st (negb fin) (y_tasks s))))) /\
       out_kept E V (snd (let '(st, fin) := vturn E (t_rec t) (t_st t) ev in
        (if fin then [] else if tmo then publish E V (t_rec t) else [],
         mk_vsys (if fin then finish E w1 w2 (t_rec t) st answers (y_db s) else y_db s) (y_dur s) (y_seen s) (y_bus s) (y_watch s)
                 (y_q s) b (y_next s) (put_task i st (negb fin) (y_tasks s)))))
        (fst (let '(st, fin) := vturn E (t_rec t) (t_st t) ev in
        (if fin then [] else if tmo then publish E V (t_rec t) else [],
         mk_vsys (if fin then finish E w1 w2 (t_rec t) st answers (y_db s) else y_db s) (y_dur s) (y_seen s) (y_bus s) (y_watch s)
                 (y_q s) b (y_next s) (put_task i st (negb fin) (y_tasks s))))) /\
       (forall r, kept s r -> kept (snd (let '(st, fin) := vturn E (t_rec t) (t_st t) ev in
        (if fin then [] else if tmo then publish E V (t_rec t) else [],
         mk_vsys (if fin then finish E w1 w2 (t_rec t) st answers (y_db s) else y_db s) (y_dur s) (y_seen s) (y_bus s) (y_watch s)
                 (y_q s) b (y_next s) (put_task i st (negb fin) (y_tasks s))))) r)).
    { intros ev b. destruct (vturn E (t_rec t) (t_st t) ev) as [st fin]. cbn [fst snd].
      set (d' := if fin then finish E w1 w2 (t_rec t) st answers (y_db s) else y_db s).
      assert (Hd : grows (db_recs (y_db s)) (db_recs d') /\ aligned (db_recs d') /\ db_dummy d' = db_dummy (y_db s)).
      { unfold d'. destruct fin; [apply finish_grows, (p_al s); auto|]. split; [apply grows_refl|]. split; auto. apply (p_al s); auto. }
      destruct Hd as (D1 & D2 & D3).
      assert (Hk : forall r, kept s r -> kept (mk_vsys d' (y_dur s) (y_seen s) (y_bus s) (y_watch s) (y_q s) b (y_next s) (put_task i st (negb fin) (y_tasks s))) r).
      { intros r Hk H0. destruct (Hk H0) as [K1 K2]. cbn [y_db y_dur]. split; auto. eapply grows_nth; eauto. }
      split; [|split; [|auto]].
      - eapply pinv_grow; eauto. intros t' Ht. cbn [y_tasks] in Ht. apply put_task_In in Ht as (t2 & T1 & _ & T3). eauto.
      - destruct fin; [auto|]. destruct tmo; [|auto]. apply publish_kept. apply Hk. apply (p_tasks s); auto. apply find_some in Ef. tauto. }
    destruct tmo; [apply Hg|]. destruct (y_buf s i) as [|v rest]; [destruct (existsb (fun x => q_id x =? i) (y_q s)); [apply Hsame; auto|]|]; apply Hg.
  - cbn [close_flushed] in Hc. unfold on_close. destruct (have_record E (y_db s) (er_epoch r)) as [x|] eqn:Eh.
    + specialize (Hc x eq_refl).
      assert (Hkx : kept s x).
      { unfold have_record, epoch_by_number in Eh. destruct (record_by_epoch (y_db s) (er_epoch r)) as [y|] eqn:Er; [|discriminate].
        assert (y = x). { destruct (cget (db_certs (y_db s)) (ee_dig E y)); [injection Eh as <-; auto|]. destruct (er_epoch r =? 0); [discriminate|injection Eh as <-; auto]. }
        subst y. pose proof (record_by_epoch_aligned s _ _ H Er) as He. intros H0. rewrite He. split; [|auto].
        rewrite <- Er, record_by_epoch_nth; auto. intros Hnil. pose proof (p_dur s H) as Hd. rewrite Hnil in Hd. cbn [length] in Hd. lia. }
      destruct H as [P1 P2 P3 P4 P5].
      split; [|split; auto]. constructor; cbn [set_db y_db y_dur y_watch y_tasks]; auto. intros r' Hr. injection Hr as <-. exact Hkx.
    + destruct (save_record_grows (y_db s) w r (p_al s H)) as (G1 & G2 & G3).
      assert (Hnew : forall d, db_save_record w (y_db s) r = (true, d) -> er_epoch r <> 0 -> nth_error (db_recs d) (er_epoch r) = Some r).
      { intros d Hd H0. unfold db_save_record in Hd. destruct (er_epoch r <? length (db_recs (y_db s))) eqn:El.
        - exfalso. apply Nat.ltb_lt in El. unfold have_record, epoch_by_number in Eh.
          rewrite record_by_epoch_nth in Eh by (intros Hnil; rewrite Hnil in El; cbn [length] in El; lia).
          destruct (nth_error (db_recs (y_db s)) (er_epoch r)) as [y|] eqn:En; [|apply nth_error_None in En; lia].
          destruct (cget (db_certs (y_db s)) (ee_dig E y)); [discriminate|]. destruct (er_epoch r =? 0) eqn:E0; [apply Nat.eqb_eq in E0; lia|discriminate].
        - destruct (er_epoch r =? length (db_recs (y_db s))) eqn:Ee; cbn [negb] in Hd; [|discriminate]. destruct w; [|discriminate].
          injection Hd as <-. cbn [db_recs]. apply Nat.eqb_eq in Ee. rewrite Ee, nth_error_app2, Nat.sub_diag by auto. auto. }
      destruct (db_save_record w (y_db s) r) as [[|] d]; cbn [snd] in *.
      * specialize (Hnew d eq_refl). destruct wp.
        -- assert (Hk : forall x, kept s x -> kept (set_db s d (length (db_recs d)) (Some r)) x).
           { intros x Hx H0. destruct (Hx H0) as [K1 K2]. cbn [set_db y_db y_dur]. split; [eapply grows_nth; eauto|].
             pose proof (p_dur s H). apply grows_len in G1. lia. }
           destruct H as [P1 P2 P3 P4 P5].
           split; [|split; auto]. constructor; cbn [set_db y_db y_dur y_watch y_tasks]; auto.
           ++ rewrite G3. auto.
           ++ intros x Hx. injection Hx as <-. intros H0. specialize (Hnew H0). cbn [set_db y_db y_dur]. split; auto. apply nth_error_Some. congruence.
        -- split; [eapply pinv_grow; eauto; auto|]. split; auto. intros x Hx H0. destruct (Hx H0). cbn [set_db y_db y_dur]. split; auto. eapply grows_nth; eauto.
      * split; [eapply pinv_grow; eauto; auto|]. split; auto. intros x Hx H0. destruct (Hx H0). cbn [set_db y_db y_dur]. split; auto. eapply grows_nth; eauto.
  - assert (Hd : grows (db_recs (y_db s)) (db_recs (ingest E (y_db s) e r c w1 w2)) /\ aligned (db_recs (ingest E (y_db s) e r c w1 w2)) /\ db_dummy (ingest E (y_db s) e r c w1 w2) = db_dummy (y_db s)).
    { unfold ingest. pose proof (p_al s H) as Ha. destruct (validate_downloaded E (y_db s) e r c); [apply save_grows; auto| |]; (split; [apply grows_refl|auto]). }
    destruct Hd as (D1 & D2 & D3).
    split; [eapply pinv_grow; eauto; auto|]. split; auto. intros x Hx H0. destruct (Hx H0). cbn [set_db y_db y_dur]. split; auto. eapply grows_nth; eauto.
  - assert (Hd : db_recs (snd (db_save_dummy (y_db s) r)) = db_recs (y_db s) /\ (forall x, db_dummy (snd (db_save_dummy (y_db s) r)) = Some x -> er_epoch x = 0)).
    { unfold db_save_dummy. destruct (er_epoch r =? 0) eqn:E0; cbn [snd db_recs db_dummy]; split; auto; [|apply (p_dummy s H)].
      intros x Hx. injection Hx as <-. apply Nat.eqb_eq; auto. }
    destruct Hd as [D1 D2].
    assert (Hk : forall x, kept s x -> kept (set_db s (snd (db_save_dummy (y_db s) r)) (y_dur s) (y_watch s)) x).
    { intros x Hx H0. destruct (Hx H0). cbn [set_db y_db y_dur]. rewrite D1. auto. }
    destruct H as [P1 P2 P3 P4 P5]. split; [|split; auto]. constructor; cbn [set_db y_db y_dur y_watch y_tasks]; rewrite ?D1; auto.
  - assert (Hk : forall x, kept s x -> kept (set_db s (y_db s) (length (db_recs (y_db s))) (y_watch s)) x).
    { intros x Hx H0. destruct (Hx H0) as [K1 K2]. cbn [set_db y_db y_dur]. pose proof (p_dur s H). split; auto. lia. }
    destruct H as [P1 P2 P3 P4 P5]. split; [|split; auto]. constructor; cbn [set_db y_db y_dur y_watch y_tasks]; auto.
  - destruct H as [P1 P2 P3 P4 P5].
    assert (Hfn : forall e x, nth_error (firstn (Nat.max n (y_dur s)) (db_recs (y_db s))) e = Some x -> nth_error (db_recs (y_db s)) e = Some x).
    { intros e x Hx. rewrite <- (firstn_skipn (Nat.max n (y_dur s)) (db_recs (y_db s))). rewrite nth_error_app1; auto. apply nth_error_Some. congruence. }
    assert (Hk : forall x, kept s x -> kept (on_restart E n keep s) x).
    { intros x Hx H0. destruct (Hx H0) as [K1 K2]. unfold on_restart, seed_mark, first_missing. cbv zeta. cbn [y_db y_dur snd db_recs].
      rewrite firstn_length. split; [|apply nth_error_Some in K1 || idtac; lia].
      rewrite <- (firstn_skipn (Nat.max n (y_dur s)) (db_recs (y_db s))) in K1. rewrite nth_error_app1 in K1; auto. rewrite firstn_length. lia. }
    split; [|split; auto]. unfold on_restart, seed_mark, first_missing. cbv zeta. constructor; cbn [y_db y_dur y_watch y_tasks snd db_recs db_dummy].
    + intros e x Hx. apply Hfn in Hx. auto.
    + auto.
    + intros r Hr. discriminate.
    + intros r Hr H0. unfold revote, latest_record in Hr. cbn [db_recs db_dummy db_certs] in Hr. cbn [y_db y_dur db_recs].
      destruct (firstn (Nat.max n (y_dur s)) (db_recs (y_db s))) as [|a l] eqn:Ef; [cbn in Hr; discriminate|]. rewrite <- Ef in *.
      assert (Hne : firstn (Nat.max n (y_dur s)) (db_recs (y_db s)) <> []) by (rewrite Ef; discriminate).
      match type of Hr with context[record_by_epoch ?d ?e] => destruct (record_by_epoch d e) as [y|] eqn:Er end; [|discriminate].
      rewrite record_by_epoch_nth in Er by auto. cbn [db_recs] in Er.
      match type of Hr with context[match ?d with Some _ => None | None => _ end] => destruct d; [discriminate|] end. injection Hr as <-.
      pose proof (P1 _ _ (Hfn _ _ Er)) as He. rewrite He. split; [exact Er|]. apply nth_error_Some. rewrite Er. discriminate.
    + intros t [].
Qed.

(* every closing of the history finds flushed records *)

Lemma yrun_kept E V gs : forall s, pinv s -> all_flushed E V s gs ->
  pinv (snd (yrun E V s gs)) /\ out_kept E V (snd (yrun E V s gs)) (fst (yrun E V s gs)) /\ (forall r, kept s r -> kept (snd (yrun E V s gs)) r).
Proof.
  induction gs as [|g gs IH]; intros s H Hf; cbn [yrun fst snd].
  - split; auto. split; auto. intros v [].
  - destruct Hf as [F1 F2]. destruct (ystep_pinv E V s g H F1) as (S1 & S2 & S3). destruct (ystep E V s g) as [o s1]. cbn [fst snd] in *.
    destruct (IH s1 S1 F2) as (I1 & I2 & I3). destruct (yrun E V s1 gs) as [o' s2]. cbn [fst snd] in *. split; auto. split; auto.
    intros v Hv. apply in_app_iff in Hv as [Hv|Hv]; auto. destruct (S2 v Hv) as (r & R1 & R2 & R3). exists r. auto.
Qed.
Lemma new_pinv : pinv vsys_new.
Proof. constructor; cbn; auto; try (intros; discriminate); [intros [|e] r H; discriminate|intros t []]. Qed.
