From Verif Require Import Util EpochModel EpochSpec EpochProofs VqModel VqSpec VqProofs VqProofs2 VqProofs3.

Lemma vloop_tmo E r evs : forall s st, vloop E r s evs = (st, false) -> vs_tmo st = vs_tmo s + tmos evs.
Proof.
  induction evs as [|e evs IH]; intros s st; cbn [vloop]; [intros H; injection H as <-; unfold tmos; simpl; lia|].
  destruct (vturn E r s e) as [s1 [|]] eqn:Et; [discriminate|]. intros H. apply IH in H. rewrite H.
  destruct e as [v| |]; cbn [vturn] in Et.
  - unfold tmos. cbn [filter is_tmo]. fold (tmos evs).
    destruct (negb (v_epoch v =? er_epoch r)); [injection Et as <-; auto|].
    destruct (N.eqb (v_hash v) (ee_dig E r) && memN (v_key v) (vs_left s)).
    + destruct (put (er_com r) (v_key v) (v_sig v) (vs_bits s) (vs_sigs s)) as [b g]. injection Et as <- _. auto.
    + destruct (negb (N.eqb (v_hash v) (ee_dig E r)) && memN (v_key v) (vs_left s)); [|injection Et as <-; auto].
      destruct (alt_bump (vs_alt s) (v_hash v)) as [a m]. injection Et as <- _. auto.
  - destruct (vs_reached s || (MAX_TIMEOUTS <? vs_tmo s)); [discriminate|]. injection Et as <-. cbn [vs_tmo]. unfold tmos. cbn [filter is_tmo length]. lia.
  - discriminate.
Qed.
Lemma vstart_tmo r me sg : vs_tmo (vstart r me sg) = 0.
Proof. unfold vstart. destruct (memN me (er_com r)); [|auto]. destruct (put (er_com r) me sg [] []); auto. Qed.
Lemma super_le r : 1 <= length (er_com r) -> super_quorum r <= length (er_com r).
Proof.
  intros H. unfold super_quorum. assert (length (er_com r) * 2 / 3 < length (er_com r)); [|lia]. apply Nat.div_lt_upper_bound; lia.
Qed.

Section Step.
Variables (E : eenv) (V : venv) (r : erec) (i : nat) (recs : list erec).
Hypothesis Hself : forall d, ve_ok V d (ve_me V) (ve_sign V d) = true.
Hypothesis Hagg : agg_complete E (vsig V).
Hypothesis Hdig : forall a b, ee_dig E a = ee_dig E b -> a = b.
Hypothesis Hlen : length recs = S (er_epoch r).
Hypothesis Hnth : nth_error recs (er_epoch r) = Some r.
Hypothesis Hcom : 1 <= length (er_com r).

Lemma cget_certified d : certs_verify E d -> forall c, cget (db_certs d) (ee_dig E r) = Some c -> verify_with_cert E r c = true.
Proof.
  intros Hc c Hg. apply cget_In in Hg. destruct (Hc _ _ Hg) as (x & X1 & X2). apply Hdig in X1. subst x. auto.
Qed.
Lemma finish_certifies st w1 answers d : certs_verify E d -> cinv E (vsig V) r st -> vs_reached st = true ->
  exists c, cget (db_certs (finish E w1 true r st answers d)) (ee_dig E r) = Some c /\ verify_with_cert E r c = true.
Proof.
  intros Hc Hi Hr. destruct (vfinish_ok E (vsig V) r st Hagg Hi Hr) as (c & C1 & C2). unfold finish. rewrite Hr, C1.
  apply vfinish_verified in C1 as [C1 _]. rewrite C1. unfold db_save_cert. destruct (cget (db_certs d) (ee_dig E r)) as [c'|] eqn:Eg.
  - exists c'. cbn [snd]. split; auto. eapply cget_certified; eauto.
  - exists c. cbn [snd db_certs cget]. rewrite N.eqb_refl. auto.
Qed.

(* moving a state with the same view *)
Lemma got_ext st st' s s' k : (forall v, pend i st s v -> pend i st' s' v) -> got E r i st s k -> got E r i st' s' k.
Proof. intros H (v & V1 & V2). exists v. auto. Qed.

Lemma k_gossip n G st s topic v : kinv E V r i recs n G st s -> cget (db_certs (y_db s)) (ee_dig E r) = None ->
  kinv E V r i recs n (votes_for E V r (GGossip topic v) ++ G) st (snd (on_gossip E V topic v s)).
Proof.
  intros K Hun.
  assert (Hkeep : votes_for E V r (GGossip topic v) = [] \/ (votes_for E V r (GGossip topic v) = [v_key v] /\ got E r i st s (v_key v)) -> kinv E V r i recs n (votes_for E V r (GGossip topic v) ++ G) st s).
  { intros Hg. destruct K as [K1 K2 K3 K4 K5 K6 K7]. constructor; auto. intros k Hk. apply in_app_iff in Hk as [Hk|Hk]; auto.
    destruct Hg as [Hg|[Hg1 Hg2]]; [rewrite Hg in Hk; destruct Hk|]. rewrite Hg1 in Hk. destruct Hk as [<-|[]]. auto. }
  assert (Hrec : v_epoch v = er_epoch r -> epoch_by_number E (y_db s) (v_epoch v) = Some (r, None)).
  { intros He. unfold epoch_by_number. rewrite record_by_epoch_nth by (rewrite (k_recs _ _ _ _ _ _ _ _ _ K); intros Hx; rewrite Hx in Hlen; discriminate).
    rewrite (k_recs _ _ _ _ _ _ _ _ _ K), He, Hnth, Hun. auto. }
  unfold on_gossip. destruct topic; cbn [negb]; [|apply Hkeep; auto].
  destruct (v_epoch v =? er_epoch r) eqn:Ee.
  2:{ assert (Hno : votes_for E V r (GGossip true v) = []) by (unfold votes_for; rewrite Ee; auto).
      destruct (epoch_by_number E (y_db s) (v_epoch v)) as [[x [c|]]|] eqn:Eb; [apply Hkeep; auto| |apply Hkeep; auto].
      destruct (forwarded_epoch E r s recs v x (k_recs _ _ _ _ _ _ _ _ _ K) Hlen Hnth Eb) as [Hle _].
      repeat match goal with |- context[if ?b then _ else _] => destruct b eqn:?; [apply Hkeep; auto|] end.
      rewrite Hno. cbn [app snd]. destruct K as [K1 K2 K3 K4 K5 K6 K7].
      assert (Hp : forall w, pend i st s w -> pend i st (mk_vsys (y_db s) (y_dur s) (record_vote (y_seen s) (v_key v, v_epoch v)) (y_bus s ++ [v]) (y_watch s)
                           (y_q s) (y_buf s) (y_next s) (y_tasks s)) w).
      { intros w [Hw|Hw]; [left; cbn [y_bus]; apply in_app_iff; auto|right]. destruct st; auto. }
      constructor; cbn [y_db y_tasks y_seen y_q]; auto.
      - intros w [Hw|Hw] He; [cbn [y_bus] in Hw; apply in_app_iff in Hw as [Hw|[<-|[]]]|].
        + apply K3; auto. left; auto.
        + apply Nat.eqb_neq in Ee. congruence.
        + apply K3; auto. right. destruct st; auto.
      - intros k Hk. apply record_vote_seen in Hk as [Hk|Hk].
        + injection Hk as _ Hk. apply Nat.eqb_neq in Ee. congruence.
        + eapply got_ext; [|apply K4; eauto]. auto.
      - intros k Hk. eapply got_ext; [|apply K5; eauto]. auto.
      - destruct st as [| |evs].
        + exfalso. destruct K7 as (_ & _ & _ & _ & _ & Ho & _). apply Nat.eqb_neq in Ee. apply Ee. eapply older_not_forwarded; eauto.
        + exfalso. destruct K7 as (_ & _ & _ & _ & _ & Ho & _). apply Nat.eqb_neq in Ee. apply Ee. eapply older_not_forwarded; eauto.
        + destruct K7 as (A1 & A2 & A3 & A4 & A5 & A6). cbn [y_watch y_bus y_buf]. split; [auto|]. split; [exact A2|]. split; [exact A3|]. split; [|split; [exact A5|exact A6]].
          intros w Hw. apply in_app_iff in Hw as [Hw|[<-|[]]]; auto. }
  apply Nat.eqb_eq in Ee. rewrite (Hrec Ee).
  destruct (N.eqb (ee_dig E r) (v_hash v)) eqn:Eh; cbn [negb].
  2:{ apply Hkeep. left. unfold votes_for. rewrite N.eqb_sym in Eh. rewrite Eh, andb_false_r. auto. }
  destruct (memN (v_key v) (er_com r)) eqn:Em; cbn [negb].
  2:{ apply Hkeep. left. unfold votes_for. rewrite Em, andb_false_r. auto. }
  destruct (seen (y_seen s) (v_key v, v_epoch v)) eqn:Es.
  { apply Hkeep. assert (Hg : got E r i st s (v_key v)) by (apply (k_seen _ _ _ _ _ _ _ _ _ K); rewrite <- Ee; auto).
    unfold votes_for. destruct ((v_epoch v =? er_epoch r) && N.eqb (v_hash v) (ee_dig E r) && memN (v_key v) (er_com r) && ve_ok V (v_hash v) (v_key v) (v_sig v)); auto. }
  destruct (ve_ok V (v_hash v) (v_key v) (v_sig v)) eqn:Eo; cbn [negb].
  2:{ apply Hkeep. left. unfold votes_for. rewrite Eo, andb_false_r. auto. }
  apply N.eqb_eq in Eh. cbn [snd]. destruct K as [K1 K2 K3 K4 K5 K6 K7].
  set (s' := mk_vsys (y_db s) (y_dur s) (record_vote (y_seen s) (v_key v, v_epoch v)) (y_bus s ++ [v]) (y_watch s) (y_q s) (y_buf s) (y_next s) (y_tasks s)).
  assert (Hp : forall w, pend i st s w -> pend i st s' w).
  { intros w [Hw|Hw]; [left; cbn [s' y_bus]; apply in_app_iff; auto|right]. destruct st; auto. }
  assert (Hme : got E r i st s' (v_key v)). { exists v. split; auto. left. cbn [s' y_bus]. apply in_app_iff. right; simpl; auto. }
  constructor; auto.
  - intros w [Hw|Hw] He; [cbn [s' y_bus] in Hw; apply in_app_iff in Hw as [Hw|[<-|[]]]|].
    + apply K3; auto. left; auto.
    + split; auto.
    + apply K3; auto. right. destruct st; auto.
  - cbn [s' y_seen]. intros k Hk. apply record_vote_seen in Hk as [Hk|Hk]; [injection Hk as Hk _; rewrite Hk; auto|].
    eapply got_ext; [exact Hp|apply K4; auto].
  - intros k Hk. apply in_app_iff in Hk as [Hk|Hk]; [|eapply got_ext; [exact Hp|apply K5; auto]].
    unfold votes_for in Hk. destruct ((v_epoch v =? er_epoch r) && N.eqb (v_hash v) (ee_dig E r) && memN (v_key v) (er_com r) && ve_ok V (v_hash v) (v_key v) (v_sig v)); [|destruct Hk].
    destruct Hk as [<-|[]]. auto.
  - destruct st as [| |evs].
    + destruct K7 as (A1 & A2 & A3 & A4 & A5 & A6). split; [exact A1|]. split; [exact A2|]. split; [exact A3|]. split; [exact A4|]. split; [|exact A6].
      cbn [s' y_bus]. intros w Hw. apply in_app_iff in Hw as [Hw|[<-|[]]]; auto.
    + destruct K7 as (A1 & A2 & A3 & A4 & A5 & A6). split; [exact A1|]. split; [exact A2|]. split; [exact A3|]. split; [exact A4|]. split; [|exact A6].
      cbn [s' y_bus]. intros w Hw. apply in_app_iff in Hw as [Hw|[<-|[]]]; auto.
    + destruct K7 as (A1 & A2 & A3 & A4 & A6). split; [exact A1|]. split; [exact A2|]. split; [exact A3|]. split; [|exact A6].
      cbn [s' y_bus]. intros w Hw. apply in_app_iff in Hw as [Hw|[<-|[]]]; auto. lia.
Qed.

Lemma k_route n G st s : kinv E V r i recs n G st s -> exists st', kinv E V r i recs n G st' (on_route s).
Proof.
  intros K. unfold on_route. destruct (y_bus s) as [|v b] eqn:Eb; [exists st; auto|].
  destruct K as [K1 K2 K3 K4 K5 K6 K7].
  assert (Hvp : v_epoch v = er_epoch r -> v_hash v = ee_dig E r /\ vgood V v). { apply K3. left. rewrite Eb. simpl; auto. }
  unfold route. cbn [y_q y_tasks listening]. destruct st as [| |evs].
  - destruct K7 as (A1 & A2 & A3 & A4 & A5 & A6 & A7 & A8).
    assert (He : v_epoch v = er_epoch r) by (apply A5; rewrite Eb; simpl; auto). rewrite He, A3. cbv zeta.
    assert (Hopen : forall P : vsys -> Prop, P (mk_vsys (y_db s) (y_dur s) (y_seen s) b (y_watch s) (push_q (y_q s) (mk_qent (er_epoch r) (y_next s) true))
                        (set_buf (y_buf s) (y_next s) [v]) (S (y_next s)) (y_tasks s)) ->
      P (match last (map Some (y_q s)) None with
         | Some l => if er_epoch r =? S (q_ep l) then mk_vsys (y_db s) (y_dur s) (y_seen s) b (y_watch s) (push_q (y_q s) (mk_qent (er_epoch r) (y_next s) true))
                        (set_buf (y_buf s) (y_next s) [v]) (S (y_next s)) (y_tasks s) else mk_vsys (y_db s) (y_dur s) (y_seen s) b (y_watch s) (y_q s) (y_buf s) (y_next s) (y_tasks s)
         | None => mk_vsys (y_db s) (y_dur s) (y_seen s) b (y_watch s) (push_q (y_q s) (mk_qent (er_epoch r) (y_next s) true))
                        (set_buf (y_buf s) (y_next s) [v]) (S (y_next s)) (y_tasks s) end)).
    { intros P HP. destruct A4 as [A4|(l & L1 & L2)].
      - replace (last (map Some (y_q s)) None) with (@None qent) by (rewrite A4; auto). exact HP.
      - unfold lastq in L1. rewrite L1. replace (er_epoch r =? S (q_ep l)) with true by (symmetry; apply Nat.eqb_eq; exact L2). exact HP. }
    exists SOpen. cbn [y_db y_dur y_seen y_bus y_watch y_buf y_next y_tasks]. apply Hopen. rewrite A2.
    assert (Hp : forall w, pend i SWait s w -> pend i SOpen (mk_vsys (y_db s) (y_dur s) (y_seen s) b (y_watch s) (push_q (y_q s) (mk_qent (er_epoch r) i true))
                        (set_buf (y_buf s) i [v]) (S i) (y_tasks s)) w).
    { intros w [Hw|[]]. rewrite Eb in Hw. destruct Hw as [<-|Hw]; [right|left; auto]. cbn [y_buf]. unfold set_buf. rewrite Nat.eqb_refl. simpl; auto. }
    constructor; cbn [y_db y_tasks y_seen y_q]; auto.
    + intros w [Hw|Hw] Hwe; cbn [y_bus y_buf] in Hw.
      * apply K3; auto. left. rewrite Eb. simpl; auto.
      * unfold set_buf in Hw. rewrite Nat.eqb_refl in Hw. destruct Hw as [<-|[]]. auto.
    + intros k Hk. eapply got_ext; [exact Hp|auto].
    + intros k Hk. eapply got_ext; [exact Hp|auto].
    + intros x Hx Hi. apply push_q_In in Hx as [Hx| ->]; [apply K6; auto|auto].
    + cbn [y_watch y_next y_bus y_buf]. split; [auto|]. split; [auto|]. split; [apply find_q_push; auto|]. split; [unfold lastq; cbn [y_q]; apply lastq_push|].
      split; [intros w Hw; apply A5; rewrite Eb; simpl; auto|]. split; [auto|]. split; [auto|].
      unfold set_buf. rewrite Nat.eqb_refl. intros w [<-|[]]; auto.
  - destruct K7 as (A1 & A2 & A3 & A4 & A5 & A6 & A7 & A8).
    assert (He : v_epoch v = er_epoch r) by (apply A5; rewrite Eb; simpl; auto). rewrite He, A3. unfold listening. cbn [q_rx orb q_id].
    exists SOpen. cbn [y_db y_dur y_seen y_bus y_watch y_buf y_next y_tasks].
    assert (Hb : set_buf (y_buf s) i (y_buf s i ++ [v]) i = y_buf s i ++ [v]) by (unfold set_buf; rewrite Nat.eqb_refl; auto).
    assert (Hp : forall w, pend i SOpen s w -> pend i SOpen (mk_vsys (y_db s) (y_dur s) (y_seen s) b (y_watch s) (y_q s)
                        (set_buf (y_buf s) i (y_buf s i ++ [v])) (y_next s) (y_tasks s)) w).
    { intros w [Hw|Hw]; [rewrite Eb in Hw; destruct Hw as [<-|Hw]; [right|left; auto]|right]; cbn [y_buf]; rewrite Hb; apply in_app_iff; simpl; auto. }
    constructor; cbn [y_db y_tasks y_seen y_q]; auto.
    + intros w [Hw|Hw] Hwe; cbn [y_bus y_buf] in Hw.
      * apply K3; auto. left. rewrite Eb. simpl; auto.
      * rewrite Hb in Hw. apply in_app_iff in Hw as [Hw|[<-|[]]]; auto. apply K3; auto. right; auto.
    + intros k Hk. eapply got_ext; [exact Hp|auto].
    + intros k Hk. eapply got_ext; [exact Hp|auto].
    + cbn [y_watch y_next y_bus y_buf]. split; [auto|]. split; [auto|]. split; [auto|]. split; [exact A4|].
      split; [intros w Hw; apply A5; rewrite Eb; simpl; auto|]. split; [auto|]. split; [auto|].
      rewrite Hb. intros w Hw. apply in_app_iff in Hw as [Hw|[<-|[]]]; auto.
  - destruct K7 as (A1 & A2 & A3 & A4 & A5 & A6 & A7 & A8 & t & T1 & T2 & T3 & T4).
    assert (Hle : v_epoch v <= er_epoch r) by (apply A4; rewrite Eb; simpl; auto).
    destruct (Nat.eq_dec (v_epoch v) (er_epoch r)) as [He|Hne].
    + rewrite He, A2. unfold listening. cbn [q_rx orb q_id y_tasks].
      assert (Hex : existsb (fun t => (t_id t =? i) && t_run t) (y_tasks s) = true).
      { apply existsb_exists. apply find_some in T1 as [T1 T1']. exists t. rewrite T1', T3. auto. }
      rewrite Hex. exists (SRun evs). cbn [y_db y_dur y_seen y_bus y_watch y_buf y_next y_tasks].
      assert (Hb : set_buf (y_buf s) i (y_buf s i ++ [v]) i = y_buf s i ++ [v]) by (unfold set_buf; rewrite Nat.eqb_refl; auto).
      assert (Hp : forall w, pend i (SRun evs) s w -> pend i (SRun evs) (mk_vsys (y_db s) (y_dur s) (y_seen s) b (y_watch s) (y_q s)
                        (set_buf (y_buf s) i (y_buf s i ++ [v])) (y_next s) (y_tasks s)) w).
      { intros w [Hw|[Hw|Hw]]; [rewrite Eb in Hw; destruct Hw as [<-|Hw]; [right; left|left; auto]|right; left|right; right; auto]; cbn [y_buf]; rewrite Hb; apply in_app_iff; simpl; auto. }
      constructor; cbn [y_db y_tasks y_seen y_q]; auto.
      * intros w [Hw|[Hw|Hw]] Hwe; cbn [y_bus y_buf] in Hw.
        -- apply K3; auto. left. rewrite Eb. simpl; auto.
        -- rewrite Hb in Hw. apply in_app_iff in Hw as [Hw|[<-|[]]]; auto. apply K3; auto. right; auto.
        -- apply K3; auto. right; right; auto.
      * intros k Hk. eapply got_ext; [exact Hp|auto].
      * intros k Hk. eapply got_ext; [exact Hp|auto].
      * cbn [y_watch y_next y_bus y_buf]. split; [auto|]. split; [auto|]. split; [exact A3|].
        split; [intros w Hw; apply A4; rewrite Eb; simpl; auto|]. rewrite Hb. split; [|split; [auto|split; [auto|split; [auto|exists t; auto]]]].
        intros w Hw. apply in_app_iff in Hw as [Hw|[<-|[]]]; auto.
    + assert (Hgen : forall q b', find_q (er_epoch r) q = Some (mk_qent (er_epoch r) i false) -> last (map Some q) None = Some (mk_qent (er_epoch r) i false) ->
        (forall x, In x q -> In x (y_q s)) -> b' i = y_buf s i ->
        kinv E V r i recs n G (SRun evs) (mk_vsys (y_db s) (y_dur s) (y_seen s) b (y_watch s) q b' (y_next s) (y_tasks s))).
      { intros q b' Q1 Q2 Q3 Q4.
        assert (Hp : forall w, pend i (SRun evs) s w -> v_epoch w = er_epoch r -> pend i (SRun evs) (mk_vsys (y_db s) (y_dur s) (y_seen s) b (y_watch s) q b' (y_next s) (y_tasks s)) w).
        { intros w [Hw|Hw] Hwe; [rewrite Eb in Hw; destruct Hw as [<-|Hw]; [congruence|left; auto]|right]. cbn [y_buf]. rewrite Q4. auto. }
        assert (Hg : forall k, got E r i (SRun evs) s k -> got E r i (SRun evs) (mk_vsys (y_db s) (y_dur s) (y_seen s) b (y_watch s) q b' (y_next s) (y_tasks s)) k).
        { intros k (w & W1 & W2 & W3). exists w. auto. }
        constructor; cbn [y_db y_tasks y_seen y_q]; auto.
        - intros w [Hw|Hw] Hwe; cbn [y_bus y_buf] in Hw; [apply K3; auto; left; rewrite Eb; simpl; auto|]. rewrite Q4 in Hw. apply K3; auto. right; auto.
        - cbn [y_watch y_next y_bus y_buf]. rewrite Q4. split; [auto|]. split; [auto|]. split; [exact Q2|]. split; [intros w Hw; apply A4; rewrite Eb; simpl; auto|].
          split; [auto|]. split; [auto|]. split; [auto|]. split; [auto|]. exists t; auto. }
      exists (SRun evs). cbn [y_db y_dur y_seen y_bus y_watch y_buf y_next y_tasks].
      destruct (find_q (v_epoch v) (y_q s)) as [x|] eqn:Ex.
      * apply find_q_In in Ex as [X1 X2]. match goal with |- context[if ?b then _ else _] => destruct b end.
        -- apply Hgen; auto. unfold set_buf. destruct (i =? q_id x) eqn:Ei; [|auto]. apply Nat.eqb_eq in Ei. exfalso. apply Hne. rewrite <- X2. apply K6; auto.
        -- apply Hgen; auto; [rewrite find_q_drop; auto|apply lastq_drop; [exact A3|cbn [q_ep]; auto]|intros y Hy; eapply drop_q_In; eauto].
      * cbv zeta. unfold lastq in A3. rewrite A3. cbn [q_ep]. destruct (v_epoch v =? S (er_epoch r)) eqn:Es; [apply Nat.eqb_eq in Es; lia|]. apply Hgen; auto.
Qed.

Lemma k_record n G st s : kinv E V r i recs n G st s -> exists st', kinv E V r i recs n G st' (snd (on_record E V s)).
Proof.
  intros K. destruct K as [K1 K2 K3 K4 K5 K6 K7]. unfold on_record. destruct st as [| |evs].
  - destruct K7 as (A1 & A2 & A3 & A4 & A5 & A6 & A7 & A8). rewrite A1. cbv zeta. unfold take_channel. cbn [y_q]. rewrite A3.
    exists (SRun []). cbn [fst snd y_db y_dur y_seen y_bus y_watch y_q y_buf y_next y_tasks]. rewrite A2.
    match goal with |- kinv _ _ _ _ _ _ _ _ ?x => set (s' := x) end.
    assert (Hb : y_buf s' i = []) by (cbn [s' y_buf]; unfold set_buf; rewrite Nat.eqb_refl; auto).
    assert (Hp : forall w, pend i SWait s w -> pend i (SRun []) s' w) by (intros w [Hw|[]]; left; auto).
    constructor; auto.
    + cbn [s' y_tasks]. intros t [<-|Ht]; auto.
    + intros w [Hw|[Hw|Hw]] Hwe; [apply K3; auto; left; auto|rewrite Hb in Hw; destruct Hw|destruct Hw].
    + intros k Hk. eapply got_ext; [exact Hp|auto].
    + intros k Hk. eapply got_ext; [exact Hp|auto].
    + intros x Hx Hi. cbn [s' y_q] in Hx. apply push_q_In in Hx as [Hx|Hx]; [auto|rewrite Hx; auto].
    + rewrite Hb. cbn [s' y_watch y_q y_bus y_tasks]. split; [auto|]. split; [apply find_q_push; auto|]. split; [apply lastq_push|].
      split; [intros w Hw; rewrite (A5 w Hw); auto|]. split; [intros w []|]. split; [intros []|]. split; [unfold tmos; cbn [filter length]; lia|]. split; [intros w []|].
      eexists. cbn [find t_id]. rewrite Nat.eqb_refl. split; [reflexivity|]. cbn [t_rec t_run t_st vloop]. auto.
  - destruct K7 as (A1 & A2 & A3 & A4 & A5 & A6 & A7 & A8). rewrite A1. cbv zeta. unfold take_channel. cbn [y_q]. rewrite A3. cbn [q_rx q_id].
    exists (SRun []). cbn [fst snd y_db y_dur y_seen y_bus y_watch y_q y_buf y_next y_tasks].
    match goal with |- kinv _ _ _ _ _ _ _ _ ?x => set (s' := x) end.
    assert (Hp : forall w, pend i SOpen s w -> pend i (SRun []) s' w) by (intros w [Hw|Hw]; [left; auto|right; left; auto]).
    set (f := fun z => if q_id z =? i then mk_qent (q_ep z) (q_id z) false else z) in *.
    constructor; auto.
    + cbn [s' y_tasks]. intros t [<-|Ht]; auto.
    + intros w [Hw|[Hw|Hw]] Hwe; [apply K3; auto; left; auto|apply K3; auto; right; auto|destruct Hw].
    + intros k Hk. eapply got_ext; [exact Hp|auto].
    + intros k Hk. eapply got_ext; [exact Hp|auto].
    + intros x Hx Hi. cbn [s' y_q] in Hx. apply in_map_iff in Hx as (z & <- & Hz). unfold f in *. destruct (q_id z =? i) eqn:Ez; cbn [q_ep q_id] in *; auto.
    + cbn [s' y_watch y_q y_bus y_tasks y_buf]. split; [auto|]. assert (Hf : f (mk_qent (er_epoch r) i true) = mk_qent (er_epoch r) i false) by (unfold f; cbn [q_id]; rewrite Nat.eqb_refl; auto).
      split; [rewrite find_q_map by (intros x; unfold f; destruct (q_id x =? i); auto); rewrite A3, Hf; auto|].
      split; [unfold lastq; cbn [y_q]; rewrite <- Hf; apply lastq_map; exact A4|].
      split; [intros w Hw; rewrite (A5 w Hw); auto|]. split; [auto|]. split; [intros []|]. split; [unfold tmos; cbn [filter length]; lia|]. split; [intros w []|].
      eexists. cbn [find t_id]. rewrite Nat.eqb_refl. split; [reflexivity|]. cbn [t_rec t_run t_st vloop]. auto.
  - exists (SRun evs). destruct K7 as (A1 & A2). rewrite A1. cbn [snd]. constructor; auto.
Qed.

Lemma k_task n G st s j tmo w1 answers : ids_ok s -> ysafe E V s -> kinv E V r i recs n G st s -> (j = i -> tmo = true -> n <= 24) ->
  certified E r (snd (on_task E V j tmo w1 true answers s)) \/
  exists st', kinv E V r i recs (n + waits i (GTask j tmo w1 true answers)) G st' (snd (on_task E V j tmo w1 true answers s)).
Proof.
  intros Hid Hsafe K Hn. pose proof (k_recs _ _ _ _ _ _ _ _ _ K) as Kr. pose proof (k_tasks _ _ _ _ _ _ _ _ _ K) as Kt.
  pose proof (calm_db E V s (GTask j tmo w1 true answers) recs (er_epoch r) eq_refl Kr Hlen Kt) as Hgrow. cbn [ystep] in Hgrow.
  (* a turn that leaves our task alone *)
  assert (Hother : j <> i -> kinv E V r i recs n G st (snd (on_task E V j tmo w1 true answers s))).
  { intros Hji. unfold on_task in *. destruct (find (fun t => t_id t =? j) (y_tasks s)) as [t|] eqn:Ef; [|exact K]. destruct (negb (t_run t)); [exact K|].
    assert (Hgen : forall ev b, b i = y_buf s i ->
      certs_grow (y_db s) (y_db (snd (let '(st1, fin) := vturn E (t_rec t) (t_st t) ev in
        (if fin then [] else if tmo then publish E V (t_rec t) else [],
         mk_vsys (if fin then finish E w1 true (t_rec t) st1 answers (y_db s) else y_db s) (y_dur s) (y_seen s) (y_bus s) (y_watch s)
                 (y_q s) b (y_next s) (put_task j st1 (negb fin) (y_tasks s)))))) ->
      kinv E V r i recs n G st (snd (let '(st1, fin) := vturn E (t_rec t) (t_st t) ev in
        (if fin then [] else if tmo then publish E V (t_rec t) else [],
         mk_vsys (if fin then finish E w1 true (t_rec t) st1 answers (y_db s) else y_db s) (y_dur s) (y_seen s) (y_bus s) (y_watch s)
                 (y_q s) b (y_next s) (put_task j st1 (negb fin) (y_tasks s)))))).
    { intros ev b Hb Hg. destruct (vturn E (t_rec t) (t_st t) ev) as [st1 fin]. cbn [snd y_db] in *.
      match goal with |- kinv _ _ _ _ _ _ _ _ ?x => set (s' := x) end.
      destruct K as [K1 K2 K3 K4 K5 K6 K7].
      assert (Hp : forall w, pend i st s w <-> pend i st s' w). { intros w. unfold pend. cbn [s' y_bus y_buf]. rewrite Hb. tauto. }
      assert (Hgot : forall k, got E r i st s k -> got E r i st s' k). { intros k Hk. eapply got_ext; [|exact Hk]. intros w. apply Hp. }
      assert (Hold : older_certified E (y_db s) (er_epoch r) -> older_certified E (y_db s') (er_epoch r)).
      { intros Ho k Hk. eapply epoch_certified_grow; [exact Hg|auto]. }
      constructor; auto.
      - destruct Hg as [Hg _]. cbn [s' y_db]. rewrite Hg. auto.
      - cbn [s' y_tasks]. intros t' Ht. apply put_task_In in Ht as (t2 & T1 & _ & T3). rewrite <- T3. auto.
      - intros w Hw. apply K3. apply Hp. auto.
      - destruct st as [| |evs].
        + destruct K7 as (A1 & A2 & A3 & A4 & A5 & A6 & A7 & A8). split; [auto|]. split; [auto|]. split; [auto|]. split; [auto|]. split; [auto|]. split; [auto|]. split; [|auto].
          cbn [s' y_tasks]. intros t' Ht. apply put_task_In in Ht as (t2 & T1 & T2 & _). rewrite <- T2. auto.
        + destruct K7 as (A1 & A2 & A3 & A4 & A5 & A6 & A7 & A8). split; [auto|]. split; [auto|]. split; [auto|]. split; [exact A4|]. split; [auto|]. split; [auto|]. split.
          * cbn [s' y_tasks]. intros t' Ht. apply put_task_In in Ht as (t2 & T1 & T2 & _). rewrite <- T2. auto.
          * cbn [s' y_buf]. rewrite Hb. auto.
        + destruct K7 as (A1 & A2 & A3 & A4 & A5 & A6 & A7 & A8 & t' & T1 & T2 & T3 & T4).
          split; [auto|]. split; [auto|]. split; [exact A3|]. split; [auto|]. split; [cbn [s' y_buf]; rewrite Hb; auto|]. split; [auto|]. split; [auto|]. split; [auto|].
          exists t'. cbn [s' y_tasks]. rewrite find_put_task_other by auto. auto. }
    destruct tmo; [apply Hgen; auto|].
    destruct (y_buf s j) as [|v rest] eqn:Ebj; [destruct (existsb (fun x => q_id x =? j) (y_q s)); [exact K|]|]; apply Hgen; auto.
    unfold set_buf. destruct (i =? j) eqn:Eij; [apply Nat.eqb_eq in Eij; congruence|auto]. }
  destruct (Nat.eq_dec j i) as [->|Hji].
  2:{ right. exists st. assert (Hw : waits i (GTask j tmo w1 true answers) = 0) by (cbn [waits]; apply Nat.eqb_neq in Hji; rewrite Hji; destruct tmo; auto).
      rewrite Hw, Nat.add_0_r. auto. }
  clear Hother.
  assert (Hnone : find (fun t => t_id t =? i) (y_tasks s) = None -> kinv E V r i recs (n + waits i (GTask i tmo w1 true answers)) G st (snd (on_task E V i tmo w1 true answers s))).
  { intros Hf. unfold on_task. rewrite Hf. cbn [snd]. destruct K as [K1 K2 K3 K4 K5 K6 K7]. constructor; auto. destruct st as [| |evs]; auto.
    exfalso. destruct K7 as (_ & _ & _ & _ & _ & _ & _ & _ & t & T1 & _). congruence. }
  assert (Hno : (forall t, In t (y_tasks s) -> t_id t <> i) -> find (fun t => t_id t =? i) (y_tasks s) = None).
  { intros A7. destruct (find (fun t => t_id t =? i) (y_tasks s)) as [t|] eqn:Ef; auto. apply find_some in Ef as [F1 F2]. apply Nat.eqb_eq in F2. exfalso. eapply A7; eauto. }
  destruct st as [| |evs].
  - right. exists SWait. apply Hnone, Hno. destruct (k_stage _ _ _ _ _ _ _ _ _ K) as (_ & _ & _ & _ & _ & _ & A7 & _). auto.
  - right. exists SOpen. apply Hnone, Hno. destruct (k_stage _ _ _ _ _ _ _ _ _ K) as (_ & _ & _ & _ & _ & _ & A7 & _). auto.
  - clear Hnone Hno. destruct K as [K1 K2 K3 K4 K5 K6 K7]. destruct K7 as (A1 & A2 & A3 & A4 & A5 & A6 & A7 & A8 & t & T1 & T2 & T3 & T4).
    assert (Hcinv : cinv E (vsig V) r (t_st t)).
    { rewrite <- T2. apply find_some in T1 as [T1 _]. pose proof (ys_tasks E V s Hsafe) as Ht. rewrite Forall_forall in Ht. auto. }
    assert (Htm : vs_tmo (t_st t) = tmos evs). { apply vloop_tmo in T4. rewrite vstart_tmo in T4. auto. }
    (* one turn of our task with event ev *)
    assert (Hgen : forall ev b, ev <> VClosed -> (ev = VTimeout -> n <= 24) ->
      (forall v, ev = VVote v -> v_epoch v = er_epoch r /\ v_hash v = ee_dig E r /\ vgood V v) ->
      (forall v, In v (y_buf s i) -> In v (b i) \/ ev = VVote v) -> (forall v, In v (b i) -> In v (y_buf s i)) ->
      let s' := snd (let '(st1, fin) := vturn E (t_rec t) (t_st t) ev in
        (if fin then [] else if tmo then publish E V (t_rec t) else [],
         mk_vsys (if fin then finish E w1 true (t_rec t) st1 answers (y_db s) else y_db s) (y_dur s) (y_seen s) (y_bus s) (y_watch s)
                 (y_q s) b (y_next s) (put_task i st1 (negb fin) (y_tasks s)))) in
      certified E r s' \/ kinv E V r i recs (n + (if is_tmo ev then 1 else 0)) G (SRun (evs ++ [ev])) s').
    { intros ev b Hev Hto Hvv Hb1 Hb2 s'. unfold s'. rewrite T2. clear s'.
      assert (Hc1 : cinv E (vsig V) r (fst (vturn E r (t_st t) ev))).
      { destruct (vturn E r (t_st t) ev) as [st1 fin] eqn:Et. eapply vturn_cinv; eauto. intros v -> _. apply Hvv; auto. }
      destruct (vturn E r (t_st t) ev) as [st1 fin] eqn:Et. cbn [fst] in Hc1. cbn [snd]. destruct fin.
      - left. unfold certified. cbn [y_db]. apply finish_certifies; auto; [apply (ys_certs E V s Hsafe)|].
        destruct ev as [v| |]; [| |congruence].
        + destruct (Hvv v eq_refl) as (V1 & V2 & V3). cbn [vturn] in Et. rewrite V1, Nat.eqb_refl in Et. cbn [negb] in Et. rewrite V2, N.eqb_refl in Et. cbn [andb negb] in Et.
          destruct (memN (v_key v) (vs_left (t_st t))); [|discriminate].
          destruct (put (er_com r) (v_key v) (v_sig v) (vs_bits (t_st t)) (vs_sigs (t_st t))) as [b0 g0]. injection Et as <- Hl. cbn [vs_reached].
          apply Nat.leb_le in Hl. apply orb_true_iff. right. apply Nat.leb_le. pose proof (super_le r Hcom). lia.
        + cbn [vturn] in Et. destruct (vs_reached (t_st t)) eqn:Er; cbn [orb] in Et; [injection Et as <-; auto|].
          exfalso. specialize (Hto eq_refl). destruct (MAX_TIMEOUTS <? vs_tmo (t_st t)) eqn:Em; [|discriminate].
          apply Nat.ltb_lt in Em. unfold MAX_TIMEOUTS in Em. lia.
      - right. cbn [negb].
        match goal with |- kinv _ _ _ _ _ _ _ _ ?x => set (s' := x) end.
        assert (Hp : forall w, pend i (SRun evs) s w -> pend i (SRun (evs ++ [ev])) s' w).
        { intros w [Hw|[Hw|Hw]]; [left; auto|right|right; right; apply in_app_iff; auto].
          destruct (Hb1 w Hw) as [Hx| ->]; [left; auto|right; apply in_app_iff; simpl; auto]. }
        constructor; auto.
        + cbn [s' y_tasks]. intros t' Ht. apply put_task_In in Ht as (t2 & Y1 & _ & Y3). rewrite <- Y3. auto.
        + intros w [Hw|[Hw|Hw]] Hwe; [apply K3; auto; left; auto|apply K3; auto; right; left; auto|].
          apply in_app_iff in Hw as [Hw|[Hw|[]]]; [apply K3; auto; right; right; auto|]. apply Hvv in Hw. tauto.
        + intros k Hk. eapply got_ext; [exact Hp|auto].
        + intros k Hk. eapply got_ext; [exact Hp|auto].
        + split; [auto|]. split; [auto|]. split; [exact A3|]. split; [auto|]. split; [intros w Hw; apply A5; auto|].
          split; [intros Hx; apply in_app_iff in Hx as [Hx|[Hx|[]]]; auto|].
          split; [unfold tmos in *; rewrite filter_app, app_length; cbn [filter]; destruct (is_tmo ev); cbn [length]; lia|].
          split; [intros w Hw; apply in_app_iff in Hw as [Hw|[Hw|[]]]; auto; apply Hvv in Hw; tauto|].
          exists (mk_vtask i r st1 true). cbn [s' y_tasks t_rec t_run t_st]. split; [rewrite (find_put_task _ _ _ _ t T1), T2; auto|]. split; [auto|]. split; [auto|].
          rewrite vloop_app, T4. cbn [vloop]. rewrite Et. auto. }
    unfold on_task. rewrite T1, T3. cbn [negb waits]. rewrite Nat.eqb_refl.
    destruct tmo.
    + destruct (Hgen VTimeout (y_buf s)) as [Hc|Hk]; auto; [intros Hx; discriminate|intros v Hx; discriminate|]. right. eexists. exact Hk.
    + rewrite Nat.add_0_r. destruct (y_buf s i) as [|v rest] eqn:Eb.
      * assert (Hex : existsb (fun x => q_id x =? i) (y_q s) = true).
        { apply existsb_exists. apply find_q_In in A2 as [A2 _]. eexists. split; [exact A2|]. cbn [q_id]. apply Nat.eqb_refl. }
        rewrite Hex. cbn [snd]. right. exists (SRun evs). constructor; auto. rewrite Eb. split; [auto|]. split; [auto|]. split; [exact A3|]. split; [auto|]. split; [auto|]. split; [auto|]. split; [auto|]. split; [auto|]. exists t. auto.
      * destruct (Hgen (VVote v) (set_buf (y_buf s) i rest)) as [Hc|Hk]; auto.
        -- intros Hx; discriminate.
        -- intros Hx; discriminate.
        -- intros w Hw. injection Hw as <-. assert (He : v_epoch v = er_epoch r) by (apply A5; simpl; auto). split; [auto|].
           apply K3; auto. right. left. rewrite Eb. simpl; auto.
        -- unfold set_buf. rewrite Nat.eqb_refl. intros w [<-|Hw]; auto.
        -- unfold set_buf. rewrite Nat.eqb_refl. intros w Hw. simpl; auto.
        -- right. cbn [is_tmo] in Hk. rewrite Nat.add_0_r in Hk. eexists. exact Hk.
Qed.

Lemma kstep n G st s g : calm g = true -> ids_ok s -> ysafe E V s -> kinv E V r i recs n G st s -> n + waits i g <= 25 ->
  certified E r (snd (ystep E V s g)) \/
  exists st', kinv E V r i recs (n + waits i g) (votes_for E V r g ++ G) st' (snd (ystep E V s g)).
Proof.
  intros Hc Hid Hsafe K Hn.
  destruct (cget (db_certs (y_db s)) (ee_dig E r)) as [c|] eqn:Eg.
  { left. apply (certified_stays E V s g recs r (er_epoch r) Hc (k_recs _ _ _ _ _ _ _ _ _ K) Hlen (k_tasks _ _ _ _ _ _ _ _ _ K)).
    exists c. split; auto. eapply cget_certified; eauto. apply (ys_certs E V s Hsafe). }
  destruct g as [topic v| | |j tmo w1 w2 answers|x w wp|e' x c w1 w2|x| |m keep]; cbn [calm] in Hc; try discriminate; cbn [ystep snd waits votes_for app] in *; rewrite ?Nat.add_0_r in *.
  - right. exists st. apply k_gossip; auto.
  - right. apply k_route in K. destruct K as [st' K]. exists st'. auto.
  - right. apply k_record in K. destruct K as [st' K]. exists st'. auto.
  - subst w2. apply (k_task n G st s j tmo w1 answers Hid Hsafe K). intros -> ->. rewrite Nat.eqb_refl in Hn. lia.
Qed.

Lemma krun gs : forall n G st s, Forall (fun g => calm g = true) gs -> ids_ok s -> ysafe E V s -> kinv E V r i recs n G st s -> n + waits_of i gs <= 25 ->
  let s' := snd (yrun E V s gs) in
  (certified E r s' /\ db_recs (y_db s') = recs /\ forall t, In t (y_tasks s') -> er_epoch (t_rec t) <= er_epoch r) \/
  exists st', kinv E V r i recs (n + waits_of i gs) (rev (flat_map (votes_for E V r) gs) ++ G) st' s'.
Proof.
  assert (Hdone : forall gs s, Forall (fun g => calm g = true) gs -> certified E r s -> db_recs (y_db s) = recs -> (forall t, In t (y_tasks s) -> er_epoch (t_rec t) <= er_epoch r) ->
    (forall x, y_watch s = Some x -> er_epoch x <= er_epoch r) ->
    certified E r (snd (yrun E V s gs)) /\ db_recs (y_db (snd (yrun E V s gs))) = recs /\ forall t, In t (y_tasks (snd (yrun E V s gs))) -> er_epoch (t_rec t) <= er_epoch r).
  { clear gs. induction gs as [|g gs IH]; intros s Hf Hc Hr Ht Hw; [cbn [yrun snd]; split; [exact Hc|split; [exact Hr|exact Ht]]|]. rewrite yrun_cons.
    pose proof (Forall_inv Hf) as F1. pose proof (Forall_inv_tail Hf) as F2. cbv beta in F1. apply IH; auto.
    - exact (certified_stays E V s g recs r (er_epoch r) F1 Hr Hlen Ht Hc).
    - destruct (calm_db E V s g recs (er_epoch r) F1 Hr Hlen Ht) as [G1 _]. rewrite G1. auto.
    - eapply tasks_old; eauto.
    - intros x Hx. apply Hw. destruct g as [topic v| | |j tmo w1 w2 answers|y w wp|e' y c w1 w2|y| |m keep]; cbn [calm] in F1; try discriminate; cbn [ystep snd] in Hx.
      + revert Hx. unfold on_gossip. destruct (negb topic); [auto|]. destruct (epoch_by_number E (y_db s) (v_epoch v)) as [[r0 [c|]]|]; auto.
        repeat match goal with |- context[if ?b then _ else _] => destruct b; auto end.
      + revert Hx. unfold on_route. destruct (y_bus s); [auto|]. unfold route. cbn [y_q].
        destruct (find_q _ (y_q s)); [match goal with |- context[if ?b then _ else _] => destruct b end; auto|]. cbv zeta.
        destruct (last (map Some (y_q s)) None) as [l0|]; [match goal with |- context[if ?b then _ else _] => destruct b end|]; auto.
      + revert Hx. unfold on_record. destruct (y_watch s) as [r0|] eqn:Ew; [|cbn [snd]; congruence]. cbv zeta. unfold take_channel. cbn [y_q].
        destruct (find_q (er_epoch r0) (y_q s)) as [x0|]; [destruct (q_rx x0)|]; cbn [snd y_watch]; discriminate.
      + revert Hx. unfold on_task. destruct (find (fun t => t_id t =? j) (y_tasks s)) as [t|]; [|auto]. destruct (negb (t_run t)); [auto|].
        destruct tmo; [|destruct (y_buf s j) as [|v rest]; [destruct (existsb (fun x => q_id x =? j) (y_q s)); [auto|]|]];
          match goal with |- context[vturn ?a ?b ?c ?d] => destruct (vturn a b c d) as [st fin] end; auto. }
  assert (Hw : forall n G st s, kinv E V r i recs n G st s -> forall x, y_watch s = Some x -> er_epoch x <= er_epoch r).
  { intros n G st s K x Hx. pose proof (k_stage _ _ _ _ _ _ _ _ _ K) as Ks. destruct st; destruct Ks as [Ks _]; rewrite Ks in Hx; [injection Hx as <-; auto|injection Hx as <-; auto|discriminate]. }
  induction gs as [|g gs IH]; intros n G st s Hf Hid Hsafe K Hn.
  - right. exists st. unfold waits_of. simpl. rewrite Nat.add_0_r. auto.
  - cbv zeta. rewrite yrun_cons. pose proof (Forall_inv Hf) as F1. pose proof (Forall_inv_tail Hf) as F2. cbv beta in F1. unfold waits_of in *. cbn [map list_sum fold_right] in Hn. fold (list_sum (map (waits i) gs)) in Hn.
    pose proof (k_recs _ _ _ _ _ _ _ _ _ K) as Kr. pose proof (k_tasks _ _ _ _ _ _ _ _ _ K) as Kt.
    destruct (kstep n G st s g F1 Hid Hsafe K ltac:(lia)) as [Hc|[st' K']].
    + left. apply Hdone; auto.
      * destruct (calm_db E V s g _ _ F1 Kr Hlen Kt) as [G1 _]. rewrite G1. auto.
      * eapply tasks_old; eauto.
      * intros x Hx. (* the watch only empties *)
        assert (Hx' : y_watch s = Some x).
        { revert Hx. destruct g as [topic v| | |j tmo w1 w2 answers|y w wp|e' y c w1 w2|y| |m keep]; cbn [calm] in F1; try discriminate; cbn [ystep snd].
          + unfold on_gossip. destruct (negb topic); [auto|]. destruct (epoch_by_number E (y_db s) (v_epoch v)) as [[r0 [c|]]|]; auto.
            repeat match goal with |- context[if ?b then _ else _] => destruct b; auto end.
          + unfold on_route. destruct (y_bus s); [auto|]. unfold route. cbn [y_q].
            destruct (find_q _ (y_q s)); [match goal with |- context[if ?b then _ else _] => destruct b end; auto|]. cbv zeta.
            destruct (last (map Some (y_q s)) None) as [l0|]; [match goal with |- context[if ?b then _ else _] => destruct b end|]; auto.
          + unfold on_record. destruct (y_watch s) as [r0|] eqn:Ew; [|cbn [snd]; congruence]. cbv zeta. unfold take_channel. cbn [y_q].
            destruct (find_q (er_epoch r0) (y_q s)) as [x0|]; [destruct (q_rx x0)|]; cbn [snd y_watch]; discriminate.
          + unfold on_task. destruct (find (fun t => t_id t =? j) (y_tasks s)) as [t|]; [|auto]. destruct (negb (t_run t)); [auto|].
            destruct tmo; [|destruct (y_buf s j) as [|v rest]; [destruct (existsb (fun x => q_id x =? j) (y_q s)); [auto|]|]];
              match goal with |- context[vturn ?a ?b ?c ?d] => destruct (vturn a b c d) as [st' fin] end; auto. }
        eapply Hw; eauto.
    + destruct (IH _ _ _ _ F2 (ystep_ids E V s g Hid) (ystep_safe E V s g Hself Hid Hsafe) K' ltac:(lia)) as [Hc|[st2 K2]]; [left; auto|].
      right. exists st2. cbn [map list_sum fold_right flat_map]. fold (list_sum (map (waits i) gs)). rewrite rev_app_distr, <- app_assoc, Nat.add_assoc.
      destruct K2 as [K1 K2' K3 K4 K5 K6 K7]. constructor; auto. intros k Hk. apply K5. apply in_app_iff in Hk as [Hk|Hk]; [apply in_app_iff; auto|].
      apply in_app_iff. right. apply in_app_iff in Hk as [Hk|Hk]; apply in_app_iff; [left; apply in_rev; auto|right; auto].
Qed.

(* at the end: everything delivered, so the task has its quorum; one more wait stores the certificate *)
Lemma kfinal n G st s H : NoDup (er_com r) -> 2 <= length (er_com r) -> NoDup H -> incl H (er_com r) -> super_quorum r <= length H ->
  ids_ok s -> ysafe E V s -> kinv E V r i recs n G st s -> n <= 25 -> (forall h, In h H -> h <> ve_me V -> In h G) ->
  y_watch s = None -> y_bus s = [] -> y_buf s i = [] ->
  certified E r (snd (ystep E V s (GTask i true true true []))).
Proof.
  intros Hc H2 Hn Hi Hq Hid Hsafe K Hle HG Hw Hb Hbuf. pose proof (k_stage _ _ _ _ _ _ _ _ _ K) as Ks.
  destruct st as [| |evs]; [destruct Ks as [Ks _]; congruence|destruct Ks as [Ks _]; congruence|].
  destruct Ks as (A1 & A2 & A3 & A4 & A5 & A6 & A7 & A8 & t & T1 & T2 & T3 & T4).
  assert (Hev : forall v, In (VVote v) evs -> v_hash v = ee_dig E r). { intros v Hv. apply (k_good _ _ _ _ _ _ _ _ _ K v); auto. right. right. auto. }
  assert (Hreach : vs_reached (t_st t) = true).
  { replace (t_st t) with (fst (vloop E r (vstart r (ve_me V) (ve_sign V (ee_dig E r))) evs)) by (rewrite T4; auto).
    apply (vloop_reaches E r H); auto. apply vstart_jinv; auto; [lia|].
    intros h Hh Hne. destruct (k_G _ _ _ _ _ _ _ _ _ K h (HG h Hh Hne)) as (v & V1 & V2 & V3).
    destruct V1 as [V1|[V1|V1]]; [rewrite Hb in V1; destruct V1|rewrite Hbuf in V1; destruct V1|]. exists v. auto. }
  cbn [ystep]. unfold on_task. rewrite T1, T3. cbn [negb]. rewrite T2. cbn [vturn]. rewrite Hreach. cbn [orb snd]. unfold certified. cbn [y_db].
  apply finish_certifies; auto; [apply (ys_certs E V s Hsafe)|].
  rewrite <- T2. apply find_some in T1 as [T1 _]. pose proof (ys_tasks E V s Hsafe) as Ht. rewrite Forall_forall in Ht. auto.
Qed.
End Step.
