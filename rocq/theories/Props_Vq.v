(* C56: from gossiped epoch votes to a stored certificate. *)
From Verif Require Import Util EpochModel EpochSpec EpochProofs VqModel VqSpec VqProofs VqProofs2 VqProofs3 VqProofs4 Props_Epoch.

(* ---------- safety, in every history ---------- *)
(* Every certificate in the database verifies against the record it is filed under, whatever was gossiped, downloaded,
   crashed or lost. *)
Theorem C56_stored_certificates_verify E V gs k c :
  (forall d, ve_ok V d (ve_me V) (ve_sign V d) = true) ->
  In (k, c) (db_certs (y_db (snd (yrun E V vsys_new gs)))) -> exists r, k = ee_dig E r /\ verify_with_cert E r c = true.
Proof.
  intros Hs Hi. pose proof (yrun_safe E V gs Hs vsys_new new_ids (new_safe E V)) as H. apply (ys_certs _ _ _ H) in Hi. auto.
Qed.

(* What a collector has counted: for each marked position of the committee the signature of that member over the digest of
   this record, one signature per position and nothing else. *)
Theorem C56_counted_votes_are_signed E V gs t :
  (forall d, ve_ok V d (ve_me V) (ve_sign V d) = true) ->
  In t (y_tasks (snd (yrun E V vsys_new gs))) ->
  NoDup (vs_bits (t_st t)) /\ (forall j, In j (vs_bits (t_st t)) -> j < length (er_com (t_rec t))) /\
  exists l, vs_sigs (t_st t) = map snd l /\ Permutation (map (fun j => nth j (er_com (t_rec t)) 0%N) (vs_bits (t_st t))) (map fst l) /\
    forall k s, In (k, s) l -> ve_ok V (ee_dig E (t_rec t)) k s = true.
Proof.
  intros Hs Hi. pose proof (yrun_safe E V gs Hs vsys_new new_ids (new_safe E V)) as H.
  pose proof (ys_tasks _ _ _ H) as Ht. rewrite Forall_forall in Ht. specialize (Ht t Hi). destruct Ht as [(l & [L1 L2 L3 L4] & L5) _].
  split; [|split; [exact L2|exists l; auto]].
  clear -L1. induction L1 as [|a l L1 IH H]; constructor; auto. intros Hi. rewrite Forall_forall in H. apply H in Hi. lia.
Qed.

(* Memory: at most five vote queues and 1024 remembered (signer, epoch) pairs. *)
Theorem C56_bounded E V gs :
  (forall d, ve_ok V d (ve_me V) (ve_sign V d) = true) ->
  length (y_q (snd (yrun E V vsys_new gs))) <= 5 /\ length (y_seen (snd (yrun E V vsys_new gs))) <= 1024.
Proof.
  intros Hs. pose proof (yrun_safe E V gs Hs vsys_new new_ids (new_safe E V)) as H. split; [apply (ys_five _ _ _ H)|apply (ys_seen _ _ _ H)].
Qed.

(* A message that is refused leaves no trace: in particular a vote with a bad signature does not stop the real one. *)
Theorem C56_refused_changes_nothing E V topic v s e :
  fst (on_gossip E V topic v s) = [ORefuse e] -> snd (on_gossip E V topic v s) = s.
Proof.
  unfold on_gossip. destruct (negb topic); [auto|]. destruct (epoch_by_number E (y_db s) (v_epoch v)) as [[r [c|]]|]; auto.
  repeat match goal with |- context[if ?b then _ else _] => destruct b; auto end. intros H; discriminate H.
Qed.
(* What a message costs its author: a wrong topic or a false signature is fatal, another digest for a record that is still
   open costs a little, a stranger pays nothing, and a member's valid vote is never charged. *)
Definition charged E V topic v s : list vpen := map (fun o => match o with ORefuse e => penalty e | OVote _ => PNone end) (fst (on_gossip E V topic v s)).
Theorem C56_penalties E V v s :
  charged E V false v s = [PFatal] /\
  forall r, record_by_epoch (y_db s) (v_epoch v) = Some r -> cget (db_certs (y_db s)) (ee_dig E r) = None ->
    (v_hash v <> ee_dig E r -> charged E V true v s = [PMild]) /\
    (v_hash v = ee_dig E r -> ~ In (v_key v) (er_com r) -> charged E V true v s = [PNone]) /\
    (v_hash v = ee_dig E r -> In (v_key v) (er_com r) -> ~ In (v_key v, v_epoch v) (map fst (y_seen s)) ->
       ve_ok V (v_hash v) (v_key v) (v_sig v) = false -> charged E V true v s = [PFatal]) /\
    (v_hash v = ee_dig E r -> In (v_key v) (er_com r) -> ve_ok V (v_hash v) (v_key v) (v_sig v) = true -> charged E V true v s = []).
Proof.
  split; [reflexivity|]. intros r Hr Hc. unfold charged, on_gossip, epoch_by_number. rewrite Hr, Hc. cbn [negb].
  assert (Hm : forall k l, memN k l = true <-> In k l).
  { intros k l. unfold memN. rewrite existsb_exists. split; [intros (x & Hx & He); apply N.eqb_eq in He; subst; auto|intros H; exists k; split; auto; apply N.eqb_refl]. }
  split; [|split; [|split]].
  - intros H. destruct (N.eqb_spec (ee_dig E r) (v_hash v)); [congruence|]. reflexivity.
  - intros H Hn. rewrite <- H, N.eqb_refl. cbn [negb]. destruct (memN (v_key v) (er_com r)) eqn:Em; [apply Hm in Em; tauto|]. reflexivity.
  - intros H Hn Hs Hb. rewrite <- H, N.eqb_refl. cbn [negb]. apply Hm in Hn. rewrite Hn. cbn [negb].
    destruct (seen (y_seen s) (v_key v, v_epoch v)) eqn:Es.
    { exfalso. apply Hs. unfold seen in Es. apply existsb_exists in Es. destruct Es as (p & Hp & He). unfold keyeq in He.
      apply Bool.andb_true_iff in He. destruct He as [E1 E2]. apply N.eqb_eq in E1. apply Nat.eqb_eq in E2. apply in_map_iff. exists p. split; auto.
      destruct p as [[a b] c]. cbn in *. congruence. }
    rewrite Hb. cbn [negb]. reflexivity.
  - intros H Hn Hb. rewrite <- H, N.eqb_refl. cbn [negb]. apply Hm in Hn. rewrite Hn. cbn [negb]. rewrite H in Hb. try rewrite <- H in Hb.
    repeat match goal with |- context[if ?b then _ else _] => let q := fresh in destruct b eqn:q end; try reflexivity.
    all: try (rewrite H in *; congruence).
    all: match goal with q : negb ?x = true |- _ => rewrite Hb in q; discriminate q end.
Qed.

(* A vote is let in exactly when it came on the vote topic, is on the digest of our own stored, still uncertified record of
   its epoch, is signed by a member of that record's committee, and is the first of that member for that epoch; then it is
   queued once and remembered. *)
Theorem C56_admitted_votes E V topic v s :
  y_bus (snd (on_gossip E V topic v s)) <> y_bus s <->
  (topic = true /\ exists r, record_by_epoch (y_db s) (v_epoch v) = Some r /\ cget (db_certs (y_db s)) (ee_dig E r) = None /\
     v_hash v = ee_dig E r /\ In (v_key v) (er_com r) /\ ve_ok V (v_hash v) (v_key v) (v_sig v) = true /\
     ~ In (v_key v, v_epoch v) (map fst (y_seen s))).
Proof.
  unfold on_gossip, epoch_by_number. destruct topic; cbn [negb].
  2:{ cbn [snd]. split; [intros H; congruence|intros [H _]; discriminate]. }
  destruct (record_by_epoch (y_db s) (v_epoch v)) as [r|]; [|cbn [snd]; split; [congruence|intros (_ & r & H & _); discriminate]].
  destruct (cget (db_certs (y_db s)) (ee_dig E r)) as [c|] eqn:Ec.
  { cbn [snd]. split; [congruence|]. intros (_ & r' & H & H2 & _). injection H as <-. congruence. }
  destruct (N.eqb (ee_dig E r) (v_hash v)) eqn:Ed; cbn [negb].
  2:{ cbn [snd]. split; [congruence|]. intros (_ & r' & H & _ & H2 & _). injection H as <-. apply N.eqb_neq in Ed. congruence. }
  destruct (memN (v_key v) (er_com r)) eqn:Em; cbn [negb].
  2:{ cbn [snd]. split; [congruence|]. intros (_ & r' & H & _ & _ & H2 & _). injection H as <-. apply memN_In in H2. congruence. }
  destruct (seen (y_seen s) (v_key v, v_epoch v)) eqn:Es.
  { cbn [snd]. split; [congruence|]. intros (_ & r' & _ & _ & _ & _ & _ & H2). apply seen_In in Es. tauto. }
  destruct (ve_ok V (v_hash v) (v_key v) (v_sig v)) eqn:Ev; cbn [negb].
  2:{ cbn [snd]. split; [congruence|]. intros (_ & r' & _ & _ & _ & _ & H2 & _). congruence. }
  cbn [snd y_bus]. split.
  - intros _. split; [auto|]. exists r. apply N.eqb_eq in Ed. apply memN_In in Em. repeat split; auto. intros Hx. apply seen_In in Hx. congruence.
  - intros _ H. apply (f_equal (@length vote)) in H. rewrite app_length in H. cbn [length] in H. lia.
Qed.

(* ---------- one signature per epoch ---------- *)
(* Across crashes and restarts a node publishes at most one vote per epoch (the same bytes each time), provided the records a
   closing finds already stored have reached the disk.  Epoch 0 is excepted, see below. *)
Theorem C56_signs_one_record E V gs v v' :
  all_flushed E V vsys_new gs -> In (OVote v) (fst (yrun E V vsys_new gs)) -> In (OVote v') (fst (yrun E V vsys_new gs)) ->
  v_epoch v = v_epoch v' -> v_epoch v <> 0 -> v = v'.
Proof.
  intros Hf H1 H2 He H0. destruct (yrun_kept E V gs vsys_new new_pinv Hf) as (_ & Hk & _).
  destruct (Hk v H1) as (r & -> & K1 & _). destruct (Hk v' H2) as (r' & -> & K2 & _). cbn [own_vote v_epoch] in *.
  unfold kept in K1, K2. rewrite <- He in K2. destruct (K1 H0) as [K1' _]. destruct (K2 H0) as [K2' _]. rewrite K1' in K2'. injection K2' as ->. auto.
Qed.
(* A vote is published only by a member of the committee, and is a signature over a record the node has on disk. *)
Theorem C56_votes_are_on_disk E V gs v :
  all_flushed E V vsys_new gs -> In (OVote v) (fst (yrun E V vsys_new gs)) -> v_epoch v <> 0 ->
  let s := snd (yrun E V vsys_new gs) in
  exists r, nth_error (db_recs (y_db s)) (v_epoch v) = Some r /\ v_epoch v < y_dur s /\ v_hash v = ee_dig E r /\
    v_key v = ve_me V /\ In (ve_me V) (er_com r).
Proof.
  intros Hf H1 H0. destruct (yrun_kept E V gs vsys_new new_pinv Hf) as (_ & Hk & _). destruct (Hk v H1) as (r & -> & K1 & K2).
  cbn [own_vote v_epoch] in *. destruct (K1 H0) as [K3 K4]. cbv zeta. exists r. cbn [own_vote v_epoch v_hash v_key]. auto.
Qed.

(* ---------- a quorum of votes becomes a certificate ---------- *)
(* The situation right after an epoch closed: its record is the last one, is with the router, nothing of this epoch has been
   seen or queued, and every older epoch is certified. *)
Record just_closed (E : eenv) (r : erec) (s : vsys) : Prop := {
  jc_last : length (db_recs (y_db s)) = S (er_epoch r) /\ nth_error (db_recs (y_db s)) (er_epoch r) = Some r;
  jc_watch : y_watch s = Some r;
  jc_bus : y_bus s = [];
  jc_fresh : forall k, ~ In (k, er_epoch r) (map fst (y_seen s));
  jc_queue : forall x, In x (y_q s) -> q_ep x <> er_epoch r;
  jc_next : y_q s = [] \/ exists q l, y_q s = q ++ [l] /\ er_epoch r = S (q_ep l);
  jc_tasks : forall t, In t (y_tasks s) -> er_epoch (t_rec t) <= er_epoch r;
  jc_older : older_certified E (y_db s) (er_epoch r) }.

(* Then, whatever else arrives and in whatever order the messages, the router and the collectors run: if a super quorum of
   the committee gossips valid votes for the record, and the collector of the epoch gets them before its 26th timeout, one
   more timeout leaves a verifying certificate in the database. *)
Theorem C56_quorum_of_votes_certifies E V gs0 r gs H :
  let s := snd (yrun E V vsys_new gs0) in let i := y_next s in let s' := snd (yrun E V s gs) in
  (forall d, ve_ok V d (ve_me V) (ve_sign V d) = true) -> agg_complete E (vsig V) -> (forall a b, ee_dig E a = ee_dig E b -> a = b) ->
  just_closed E r s -> NoDup (er_com r) -> 2 <= length (er_com r) -> NoDup H -> incl H (er_com r) -> super_quorum r <= length H ->
  Forall (fun g => calm g = true) gs -> waits_of i gs <= 25 ->
  (forall h, In h H -> h <> ve_me V -> In h (flat_map (votes_for E V r) gs)) ->
  y_watch s' = None -> y_bus s' = [] -> y_buf s' i = [] ->
  certified E r (snd (ystep E V s' (GTask i true true true []))).
Proof.
  intros s i s' Hs Ha Hd [[J1 J1'] J2 J3 J4 J5 J6 J7 J8] Hn H2 HnH Hi Hq Hc Hw HG W1 W2 W3.
  pose proof (yrun_ids E V gs0 vsys_new new_ids) as Hid. pose proof (yrun_safe E V gs0 Hs vsys_new new_ids (new_safe E V)) as Hsafe.
  fold s in Hid, Hsafe. destruct Hid as (I1 & I2 & I3 & I4 & I5).
  assert (Hid : ids_ok s) by (split; [auto|split; [auto|split; [auto|auto]]]).
  assert (Hne : forall k, seen (y_seen s) (k, er_epoch r) = true -> False). { intros k Hk. apply seen_In in Hk. apply (J4 k Hk). }
  assert (K : kinv E V r i (db_recs (y_db s)) 0 [] SWait s).
  { constructor; auto.
    - intros v [Hv|[]]. rewrite J3 in Hv. destruct Hv.
    - intros k Hk. destruct (Hne k Hk).
    - intros k [].
    - intros x Hx Hxi. specialize (I3 x Hx). unfold i in Hxi. lia.
    - split; [auto|]. split; [auto|]. split.
      { destruct (find_q (er_epoch r) (y_q s)) as [x|] eqn:Ex; [|auto]. apply find_q_In in Ex as [X1 X2]. exfalso. apply (J5 x X1 X2). }
      split. { destruct J6 as [J6|(q & l & J6 & J6')]; [auto|]. right. exists l. unfold lastq. rewrite J6, map_app. cbn [map]. rewrite last_last. auto. }
      split; [rewrite J3; intros v []|]. split; [auto|]. split.
      + intros t Ht Heq. specialize (I2 t Ht). unfold i in Heq. lia.
      + intros x Hx Heq. specialize (I3 x Hx). unfold i in Heq. lia. }
  destruct (krun E V r i (db_recs (y_db s)) Hs Ha Hd J1 J1' ltac:(lia) gs 0 [] SWait s Hc Hid Hsafe K ltac:(lia)) as [(C1 & C2 & C3)|[st K']].
  - fold s' in C1, C2, C3. eapply (certified_stays E V s' _ _ r (er_epoch r)); [reflexivity|exact C2|exact J1|exact C3|exact C1].
  - fold s' in K'. rewrite app_nil_r in K'. cbn [Nat.add] in K'.
    assert (F1 : ids_ok s') by (apply yrun_ids; auto). assert (F2 : ysafe E V s') by (apply yrun_safe; auto).
    assert (F3 : 1 <= length (er_com r)) by lia.
    assert (F4 : forall h, In h H -> h <> ve_me V -> In h (rev (flat_map (votes_for E V r) gs))) by (intros h Hh Hne'; apply -> in_rev; auto).
    eapply kfinal with (H := H); eauto.
Qed.

(* The same once the router has taken the record and its collector runs, even if older epochs are still uncertified and votes
   for them keep coming. *)
Record just_started (E : eenv) (V : venv) (r : erec) (i : nat) (s : vsys) : Prop := {
  js_last : length (db_recs (y_db s)) = S (er_epoch r) /\ nth_error (db_recs (y_db s)) (er_epoch r) = Some r;
  js_watch : y_watch s = None;
  js_bus : y_bus s = [] /\ y_buf s i = [];
  js_fresh : forall k, ~ In (k, er_epoch r) (map fst (y_seen s));
  js_queue : exists q, y_q s = q ++ [mk_qent (er_epoch r) i false] /\ forall x, In x q -> q_ep x <> er_epoch r;
  js_tasks : forall t, In t (y_tasks s) -> er_epoch (t_rec t) <= er_epoch r;
  js_task : In (mk_vtask i r (vstart r (ve_me V) (ve_sign V (ee_dig E r))) true) (y_tasks s) }.

Theorem C56_running_collector_certifies E V gs0 r i gs H :
  let s := snd (yrun E V vsys_new gs0) in let s' := snd (yrun E V s gs) in
  (forall d, ve_ok V d (ve_me V) (ve_sign V d) = true) -> agg_complete E (vsig V) -> (forall a b, ee_dig E a = ee_dig E b -> a = b) ->
  just_started E V r i s -> NoDup (er_com r) -> 2 <= length (er_com r) -> NoDup H -> incl H (er_com r) -> super_quorum r <= length H ->
  Forall (fun g => calm g = true) gs -> waits_of i gs <= 25 ->
  (forall h, In h H -> h <> ve_me V -> In h (flat_map (votes_for E V r) gs)) ->
  y_bus s' = [] -> y_buf s' i = [] ->
  certified E r (snd (ystep E V s' (GTask i true true true []))).
Proof.
  intros s s' Hs Ha Hd [[J1 J1'] J2 [J3 J3'] J4 (q & J5 & J5') J7 J8] Hn H2 HnH Hi Hq Hc Hw HG W2 W3.
  pose proof (yrun_ids E V gs0 vsys_new new_ids) as Hid. pose proof (yrun_safe E V gs0 Hs vsys_new new_ids (new_safe E V)) as Hsafe.
  fold s in Hid, Hsafe. destruct Hid as (I1 & I2 & I3 & I4 & I5).
  assert (Hid : ids_ok s) by (split; [auto|split; [auto|split; [auto|auto]]]).
  assert (Hne : forall k, seen (y_seen s) (k, er_epoch r) = true -> False). { intros k Hk. apply seen_In in Hk. apply (J4 k Hk). }
  assert (Hfind : find_q (er_epoch r) (y_q s) = Some (mk_qent (er_epoch r) i false)).
  { rewrite J5. clear -J5'. induction q as [|x q IH]; unfold find_q in *; cbn [app find q_ep]; [rewrite Nat.eqb_refl; auto|].
    destruct (q_ep x =? er_epoch r) eqn:Ex; [apply Nat.eqb_eq in Ex; exfalso; apply (J5' x); simpl; auto|]. apply IH. intros y Hy. apply J5'. simpl; auto. }
  assert (Hlast : lastq s = Some (mk_qent (er_epoch r) i false)).
  { unfold lastq. rewrite J5, map_app. cbn [map]. rewrite last_last. auto. }
  assert (K : kinv E V r i (db_recs (y_db s)) 0 [] (SRun []) s).
  { constructor; auto.
    - intros v [Hv|[Hv|[]]]; [rewrite J3 in Hv|rewrite J3' in Hv]; destruct Hv.
    - intros k Hk. destruct (Hne k Hk).
    - intros k [].
    - intros x Hx Hxi. rewrite J5 in Hx, I4. rewrite map_app in I4. cbn [map q_id] in I4.
      apply in_app_iff in Hx as [Hx|[<-|[]]]; [|auto]. exfalso. apply NoDup_remove_2 in I4. apply I4. rewrite app_nil_r. rewrite <- Hxi. apply in_map. auto.
    - split; [auto|]. split; [auto|]. split; [auto|]. split; [rewrite J3; intros v []|]. split; [rewrite J3'; intros v []|]. split; [intros []|].
      split; [unfold tmos; cbn [filter length]; lia|]. split; [intros v []|].
      destruct (find (fun t => t_id t =? i) (y_tasks s)) as [t|] eqn:Ef.
      + pose proof (find_task_unique s i t _ I1 Ef J8 eq_refl) as <-. eexists. split; [reflexivity|]. auto.
      + exfalso. pose proof (find_none _ _ Ef _ J8) as Hx. cbn [t_id] in Hx. rewrite Nat.eqb_refl in Hx. discriminate. }
  destruct (krun E V r i (db_recs (y_db s)) Hs Ha Hd J1 J1' ltac:(lia) gs 0 [] (SRun []) s Hc Hid Hsafe K ltac:(lia)) as [(C1 & C2 & C3)|[st K']].
  - fold s' in C1, C2, C3. eapply (certified_stays E V s' _ _ r (er_epoch r)); [reflexivity|exact C2|exact J1|exact C3|exact C1].
  - fold s' in K'. rewrite app_nil_r in K'. cbn [Nat.add] in K'.
    assert (Hwn : y_watch s' = None).
    { clear K'. unfold s'. clear s' W2 W3. clear Hid Hsafe K Hfind Hlast I1 I2 I3 I4 I5 J1 J1' J3 J3' J4 J5 J7 J8 Hw HG Hne. revert J2. generalize s. clear s.
      induction gs as [|g gs IH]; intros s J2; [auto|]. rewrite yrun_cons. apply IH; [exact (Forall_inv_tail Hc)|].
      apply Forall_inv in Hc. destruct g as [topic v| | |j tmo w1 w2 answers|y w wp|e' y c w1 w2|y| |m keep]; cbn [calm] in Hc; try discriminate; cbn [ystep snd].
      - unfold on_gossip. destruct (negb topic); [auto|]. destruct (epoch_by_number E (y_db s) (v_epoch v)) as [[r0 [c|]]|]; auto.
        repeat match goal with |- context[if ?b then _ else _] => destruct b; auto end.
      - unfold on_route. destruct (y_bus s); [auto|]. unfold route. cbn [y_q].
        destruct (find_q _ (y_q s)); [match goal with |- context[if ?b then _ else _] => destruct b end; auto|]. cbv zeta.
        destruct (last (map Some (y_q s)) None) as [l0|]; [match goal with |- context[if ?b then _ else _] => destruct b end|]; auto.
      - unfold on_record. rewrite J2. auto.
      - unfold on_task. destruct (find (fun t => t_id t =? j) (y_tasks s)) as [t|]; [|auto]. destruct (negb (t_run t)); [auto|].
        destruct tmo; [|destruct (y_buf s j) as [|v rest]; [destruct (existsb (fun x => q_id x =? j) (y_q s)); [auto|]|]];
          match goal with |- context[vturn ?a ?b ?c ?d] => destruct (vturn a b c d) as [st' fin] end; auto. }
    assert (F1 : ids_ok s') by (apply yrun_ids; auto). assert (F2 : ysafe E V s') by (apply yrun_safe; auto).
    assert (F3 : 1 <= length (er_com r)) by lia.
    assert (F4 : forall h, In h H -> h <> ve_me V -> In h (rev (flat_map (votes_for E V r) gs))) by (intros h Hh Hne'; apply -> in_rev; auto).
    eapply kfinal with (H := H); eauto.
Qed.

(* ---------- restart ---------- *)
Lemma ystep_aligned E V s g : aligned (db_recs (y_db s)) -> aligned (db_recs (y_db (snd (ystep E V s g)))).
Proof.
  intros H. destruct g as [topic v| | |i tmo w1 w2 answers|r w wp|e r c w1 w2|r| |n keep]; cbn [ystep snd].
  - unfold on_gossip. destruct (negb topic); [auto|]. destruct (epoch_by_number E (y_db s) (v_epoch v)) as [[r [c|]]|]; auto.
    repeat match goal with |- context[if ?b then _ else _] => destruct b; auto end.
  - unfold on_route. destruct (y_bus s); [auto|]. unfold route. cbn [y_q].
    destruct (find_q _ (y_q s)); [match goal with |- context[if ?b then _ else _] => destruct b end; auto|]. cbv zeta.
    destruct (last (map Some (y_q s)) None) as [l0|]; [match goal with |- context[if ?b then _ else _] => destruct b end|]; auto.
  - unfold on_record. destruct (y_watch s) as [r|]; [|auto]. cbv zeta. unfold take_channel. cbn [y_q].
    destruct (find_q (er_epoch r) (y_q s)) as [x|]; [destruct (q_rx x)|]; auto.
  - unfold on_task. destruct (find (fun t => t_id t =? i) (y_tasks s)) as [t|]; [|auto]. destruct (negb (t_run t)); [auto|].
    destruct tmo; [|destruct (y_buf s i) as [|v rest]; [destruct (existsb (fun x => q_id x =? i) (y_q s)); [auto|]|]];
      match goal with |- context[vturn ?a ?b ?c ?d] => destruct (vturn a b c d) as [st [|]] end; cbn [snd y_db]; auto; apply finish_grows; auto.
  - unfold on_close. destruct (have_record E (y_db s) (er_epoch r)); [auto|]. destruct (save_record_grows (y_db s) w r H) as (_ & G & _).
    destruct (db_save_record w (y_db s) r) as [[|] d]; [destruct wp|]; auto.
  - unfold ingest. cbn [set_db y_db]. destruct (validate_downloaded E (y_db s) e r c); auto. apply save_grows; auto.
  - cbn [set_db y_db]. unfold db_save_dummy. destruct (er_epoch r =? 0); auto.
  - auto.
  - unfold on_restart. cbn [y_db]. unfold seed_mark, first_missing. cbn [snd db_recs]. intros e x Hx. apply nth_error_firstn' in Hx. auto.
Qed.
Lemma yrun_aligned E V gs : forall s, aligned (db_recs (y_db s)) -> aligned (db_recs (y_db (snd (yrun E V s gs)))).
Proof. induction gs as [|g gs IH]; intros s H; [auto|]. rewrite yrun_cons. apply IH, ystep_aligned; auto. Qed.

(* After a crash at any point and a restart, a stored but uncertified last record gets a fresh collector, and the node
   publishes its vote on it again; with C56_running_collector_certifies, a quorum of votes then certifies it. *)
Theorem C56_restart_revotes E V gs n keep r :
  let s := snd (ystep E V (snd (yrun E V vsys_new gs)) (GRestart n keep)) in
  latest_record (y_db s) = Some r -> cget (db_certs (y_db s)) (ee_dig E r) = None ->
  fst (ystep E V s GRecord) = (if memN (ve_me V) (er_com r) then [OVote (own_vote E V r)] else []) /\
  just_started E V r (y_next s) (snd (ystep E V s GRecord)).
Proof.
  intros s Hl Hc.
  assert (Ha : aligned (db_recs (y_db s))) by (apply ystep_aligned, yrun_aligned; intros e x Hx; destruct e; discriminate).
  assert (Hw : y_watch s = Some r). { unfold s. cbn [ystep snd]. unfold on_restart. cbn [y_watch]. unfold s in Hl, Hc. cbn [ystep snd] in Hl, Hc. unfold on_restart in Hl, Hc. cbn [y_db] in Hl, Hc. unfold revote. rewrite Hl, Hc. auto. }
  assert (Hq : y_q s = [] /\ y_bus s = [] /\ y_seen s = [] /\ y_tasks s = []) by (unfold s; auto). destruct Hq as (Q1 & Q2 & Q3 & Q4).
  assert (Hd : db_dummy (y_db s) = None) by auto.
  assert (Hlast : length (db_recs (y_db s)) = S (er_epoch r) /\ nth_error (db_recs (y_db s)) (er_epoch r) = Some r).
  { unfold latest_record in Hl. destruct (db_recs (y_db s)) as [|a l] eqn:Er; [rewrite Hd in Hl; discriminate|].
    rewrite record_by_epoch_nth in Hl by (rewrite Er; discriminate). rewrite Er in Hl. pose proof (Ha _ _ Hl) as He.
    cbn [length] in He, Hl |- *. rewrite <- He in Hl. split; [lia|exact Hl]. }
  cbn [ystep]. unfold on_record. rewrite Hw. cbv zeta. unfold take_channel. cbn [y_q]. rewrite Q1. cbn [find_q find fst snd].
  split; [reflexivity|]. constructor; cbn [y_db y_watch y_bus y_buf y_seen y_q y_tasks].
  - exact Hlast.
  - auto.
  - split; [auto|]. unfold set_buf. rewrite Nat.eqb_refl. auto.
  - rewrite Q3. intros k [].
  - exists []. split; [auto|]. intros x [].
  - intros t [<-|Ht]; [auto|]. rewrite Q4 in Ht. destruct Ht.
  - left. auto.
Qed.

(* ---------- concrete cases ---------- *)
Definition E0 : eenv := tenv (fun _ _ => true).
Definition V1 : venv := mk_venv 1 (fun _ => 7%N) (fun _ _ s => N.eqb s 7).
Lemma V1_self d : ve_ok V1 d (ve_me V1) (ve_sign V1 d) = true.
Proof. reflexivity. Qed.
Lemma V1_agg : agg_complete E0 (vsig V1).
Proof. intros d l Hn _. apply (tenv_agg (fun _ _ => true) d l Hn). auto. Qed.
Definition vt (r : erec) (k s : N) : vote := mk_vote (er_epoch r) (tdig r) k s.
Definition gossip (r : erec) (k : N) : vevt := GGossip true (vt r k 7).
(* epoch 0 closes and is certified by members 1, 2 and 3; then epoch 1 closes *)
Definition first_epoch : list vevt :=
  [GDummy (mk_erec 0 [1; 2; 3; 4]%N [1; 2; 3; 4]%N 0 9 0 0); GClose (chain4 0) true true; GRecord; gossip (chain4 0) 2; gossip (chain4 0) 3;
   GRoute; GRoute; GTask 0 false true true []; GTask 0 false true true []; GTask 0 true true true []].
Definition closing : list vevt := first_epoch ++ [GClose (chain4 1) true true].
(* votes before and after the router sees the record, one forged, one repeated, one for a certified epoch, one wait *)
Definition voting : list vevt :=
  [gossip (chain4 1) 2; GGossip true (vt (chain4 1) 3 8); GRoute; GRecord; gossip (chain4 1) 3; gossip (chain4 1) 2; gossip (chain4 0) 4;
   GTask 1 false true true []; GRoute; GTask 1 true true true []; GTask 1 false true true []].
Lemma C56_example_closed : just_closed E0 (chain4 1) (snd (yrun E0 V1 vsys_new closing)).
Proof.
  constructor.
  - vm_compute. auto.
  - vm_compute. auto.
  - vm_compute. auto.
  - intros k. vm_compute. intros H. repeat (destruct H as [H|H]; [discriminate H|]). destruct H.
  - intros x. vm_compute. intros [<-|[]]. discriminate.
  - right. exists [], (mk_qent 0 0 false). vm_compute. auto.
  - intros t Ht. vm_compute in Ht. destruct Ht as [<-|[]]. vm_compute. auto.
  - intros k Hk. destruct k as [|k]; [vm_compute; auto|]. cbn in Hk. lia.
Qed.
Example C56_example_certifies :
  certified E0 (chain4 1) (snd (ystep E0 V1 (snd (yrun E0 V1 (snd (yrun E0 V1 vsys_new closing)) voting)) (GTask 1 true true true []))).
Proof.
  apply (C56_quorum_of_votes_certifies E0 V1 closing (chain4 1) voting [1; 2; 3]%N V1_self V1_agg tdig_inj C56_example_closed).
  - vm_compute. repeat (constructor; [simpl; intuition discriminate|]); constructor.
  - vm_compute. lia.
  - repeat (constructor; [simpl; intuition discriminate|]); constructor.
  - intros x [<-|[<-|[<-|[]]]]; vm_compute; auto.
  - vm_compute. auto.
  - repeat constructor.
  - vm_compute. lia.
  - intros h [<-|[<-|[<-|[]]]] Hh; [exfalso; apply Hh; reflexivity|vm_compute; auto|vm_compute; auto].
  - vm_compute. auto.
  - vm_compute. auto.
  - vm_compute. auto.
Qed.
(* crash after epoch 1 closed: the record is re-armed and the same vote goes out again *)
Example C56_example_restart :
  let o := fst (yrun E0 V1 vsys_new (closing ++ [GRecord; GRestart 0 (fun _ => true); GRecord])) in
  length o = 3 /\ nth_error o 1 = Some (OVote (vt (chain4 1) 1 7)) /\ nth_error o 2 = Some (OVote (vt (chain4 1) 1 7)) /\
  all_flushed E0 V1 vsys_new (closing ++ [GRecord; GRestart 0 (fun _ => true); GRecord]).
Proof.
  split; [vm_compute; auto|]. split; [vm_compute; auto|]. split; [vm_compute; auto|].
  vm_compute. repeat split; auto; intros x Hx; discriminate.
Qed.

(* ---------- limits ---------- *)
(* A valid late vote for an old, never certified epoch can cost the current one: it opens a queue, votes that are not for the
   next epoch after it are dropped, and they stay remembered as seen, so the same votes sent again are ignored.  Here all
   four members vote for record 2, everything is delivered, and the collector has only this node's vote. *)
Definition three_records : list vevt := [GClose (chain4 0) true true; GClose (chain4 1) true true; GClose (chain4 2) true true; GRestart 0 (fun _ => true)].
Definition crowded : list vevt :=
  [gossip (chain4 0) 4; GRoute; gossip (chain4 2) 2; gossip (chain4 2) 3; gossip (chain4 2) 4; GRoute; GRoute; GRoute; GRecord].
Theorem C56_old_vote_crowds_out_refuted :
  let s := snd (yrun E0 V1 vsys_new (three_records ++ crowded)) in
  y_bus s = [] /\ (forall i, i < y_next s -> y_buf s i = [] \/ y_buf s i = [vt (chain4 0) 4 7]) /\
  (exists t, y_tasks s = [t] /\ t_rec t = chain4 2 /\ vs_bits (t_st t) = [0]) /\
  (forall k, In k [2; 3; 4]%N -> ystep E0 V1 s (gossip (chain4 2) k) = ([], s)).
Proof.
  cbv zeta. split; [vm_compute; auto|]. split.
  - intros i Hi. assert (Hn : y_next (snd (yrun E0 V1 vsys_new (three_records ++ crowded))) = 2) by (vm_compute; auto). rewrite Hn in Hi.
    destruct i as [|[|i]]; [right; vm_compute; auto|left; vm_compute; auto|lia].
  - split; [eexists; vm_compute; auto|]. intros k [<-|[<-|[<-|[]]]]; vm_compute; auto.
Qed.

(* While a node still holds its stand-in for epoch 0, honest votes on the real record of epoch 0 are charged a penalty; for
   any other epoch a vote that comes early is dropped for free. *)
Theorem C56_early_vote_charged_refuted :
  let s := snd (yrun E0 V1 vsys_new [GDummy (mk_erec 0 [1; 2; 3; 4]%N [1; 2; 3; 4]%N 0 9 0 0)]) in
  fst (ystep E0 V1 s (gossip (chain4 0) 2)) = [ORefuse WrongDigest] /\ penalty WrongDigest = PMild /\
  fst (ystep E0 V1 s (gossip (chain4 1) 2)) = [].
Proof. vm_compute. auto. Qed.

(* The router sees only the last record: if two epochs close before it looks, the first gets no collector and no vote of
   this node. *)
Theorem C56_record_skipped_refuted :
  let p := yrun E0 V1 vsys_new [GClose (chain4 0) true true; GClose (chain4 1) true true; GRecord; GRecord] in
  fst p = [OVote (vt (chain4 1) 1 7)] /\ exists t, y_tasks (snd p) = [t] /\ t_rec t = chain4 1.
Proof. vm_compute. split; [auto|]. eexists. split; reflexivity. Qed.

(* Without the flush, two different votes for one epoch can go out: the append worked and the flush failed, the closing tried
   again finds the record and signs it, a crash loses it, and another record is built and signed. *)
Theorem C56_unflushed_close_refuted :
  let gs := [GClose (chain4 0) true true; GClose (chain4 1) true false; GClose (chain4 1) true true; GRecord; GRestart 0 (fun _ => true);
             GClose forged true true; GRecord] in
  fst (yrun E0 V1 vsys_new gs) = [OVote (vt (chain4 1) 1 7); OVote (vt forged 1 7)] /\ ~ all_flushed E0 V1 vsys_new gs.
Proof.
  split; [vm_compute; auto|]. vm_compute. intros (_ & _ & H & _). specialize (H _ eq_refl). lia.
Qed.

(* Epoch 0 is built again while it is uncertified, so a different rebuilt record is signed although another one is on disk. *)
Theorem C56_epoch0_signed_twice_refuted :
  let other := mk_erec 0 [1; 2; 3; 4]%N [1; 2; 3; 4]%N DEFAULT_DIGEST 5 0 0 in
  let gs := [GClose (chain4 0) true true; GRecord; GRestart 0 (fun _ => true); GClose other true true; GRecord] in
  fst (yrun E0 V1 vsys_new gs) = [OVote (vt (chain4 0) 1 7); OVote (vt other 1 7)] /\ all_flushed E0 V1 vsys_new gs /\
  db_recs (y_db (snd (yrun E0 V1 vsys_new gs))) = [chain4 0].
Proof. split; [vm_compute; auto|]. split; [|vm_compute; auto]. vm_compute. repeat split; auto; intros x Hx; discriminate. Qed.
