From Verif Require Import Util Types CommitteeModel CommitteeProofs CertModel LdbModel LdbProofs LdbHist LdbChain VoteModel VoteSpec VoteProofs.
Local Open Scope N_scope.

Lemma parent_loop_spec c h : forall ps seen st st', parent_loop c h seen st ps = Some st' ->
  (forall p, In p ps -> c_epoch p = h_epoch h /\ c_round p + 1 = h_round h /\ h_created (c_header p) <= h_created h /\ ~ In (c_origin p) seen) /\
  NoDup (map c_origin ps) /\ st' = st + group_power c (map c_origin ps).
Proof.
  induction ps as [|p ps IH]; intros seen st st' H; cbn in H.
  - injection H as <-. split; [intros p []|]. split; [constructor|]. unfold group_power. cbn. lia.
  - destruct (N.eqb_spec (c_epoch p) (h_epoch h)) as [E1|]; [|discriminate]. cbn [negb] in H.
    destruct (N.eqb_spec (c_round p + 1) (h_round h)) as [E2|]; [|discriminate]. cbn [negb] in H.
    destruct (N.ltb_spec (h_created h) (h_created (c_header p))) as [|E3]; [discriminate|].
    destruct (memN (c_origin p) seen) eqn:E4; [discriminate|]. apply memN_nIn in E4.
    destruct (IH _ _ _ H) as (I1 & I2 & I3). split; [|split].
    + intros q [<-|Hq]; [auto|]. destruct (I1 q Hq) as (J1 & J2 & J3 & J4). cbn in J4. tauto.
    + cbn. constructor; [|exact I2]. intros Hin. apply in_map_iff in Hin as (q & Eq & Hq).
      destruct (I1 q Hq) as (_ & _ & _ & J4). apply J4. left. auto.
    + rewrite I3. unfold group_power. cbn. fold (sumN (map (voting_power_by_id c) (map c_origin ps))). lia.
Qed.
Lemma lookup_all_spec f ds : forall ps, lookup_all f ds = Some ps -> Forall2 (fun d p => f d = Some p) ds ps.
Proof.
  induction ds as [|d ds IH]; cbn; intros ps H.
  - injection H as <-. constructor.
  - destruct (f d) as [c|] eqn:E; [|discriminate]. destruct (lookup_all f ds) as [l|]; [|discriminate].
    injection H as <-. constructor; auto.
Qed.

Lemma checks_admissible c e h ps : committee_wf c -> vote_checks c e h ps = Some VPass -> admissible c e h.
Proof.
  intros Wf H. unfold vote_checks, header_validate in H.
  destruct (N.eqb_spec (h_epoch h) (cm_epoch c)) as [A1|]; cbn [negb] in H;
    [|cbn in H; destruct (h_epoch h =? cm_epoch c + 1); discriminate].
  destruct (N.ltb_spec (cm_size c) (N.of_nat (length (h_parents h)))) as [|A2]; [discriminate|].
  destruct (N.ltb_spec MAX_HEADER_NUM_OF_BATCHES (N.of_nat (length (h_payload h)))) as [|A3]; [discriminate|].
  destruct (cm_authority c (h_author h)) as [a|] eqn:A4; [|discriminate].
  destruct (forallb (fun p => snd p <? number_of_workers c) (h_payload h)) eqn:A5; [|discriminate].
  destruct (N.eqb_spec (h_round h) 0) as [|B1]; [discriminate|].
  destruct (N.ltb_spec (e_committed e + e_gc_depth e) (h_round h)) as [|B2]; [discriminate|].
  destruct (N.ltb_spec (cm_size c) (N.of_nat (length ps))) as [|B3]; [discriminate|].
  destruct (e_seed_ok e) eqn:B4; [|discriminate]. destruct (e_exec_ok e) eqn:B5; [|discriminate]. cbn [negb] in H.
  match type of H with match ?x with _ => _ end = _ => destruct x eqn:B6 end.
  { injection H as ->. exfalso. revert B6. destruct ps; [|destruct (e_parent_sigs e && e_accept_ok e); discriminate].
    destruct ((h_round h =? 1) && negb (forallb (fun d => match e_genesis e d with Some _ => true | None => false end) (h_parents h))); [discriminate|].
    destruct (h_round h <? e_primary_round e - e_age_limit e); [discriminate|].
    destruct (filter (fun d => negb (memN d (e_requested e))) (if h_round h =? 1 then [] else e_unknown e)); discriminate. }
  set (src := if h_round h =? 1 then e_genesis e else e_store e).
  assert (Hs : exists parents, lookup_all src (h_parents h) = Some parents /\
     exists st, parent_loop c h [] 0 parents = Some st /\ cm_quorum c <= st /\ e_batches_ok e = true /\
       h_created h <= e_now e + e_drift e).
  { assert (Fin : forall parents, (match parent_loop c h [] 0 parents with
            | None => Some (VErr false)
            | Some stake =>
              if negb (cm_quorum c <=? stake) then Some (VErr false)
              else if negb (e_batches_ok e) then Some (VErr false)
              else if (e_now e <? h_created h) && (e_drift e <? h_created h - e_now e) then Some (VErr false)
              else Some VPass
            end) = Some VPass -> exists st, parent_loop c h [] 0 parents = Some st /\ cm_quorum c <= st /\ e_batches_ok e = true /\
       h_created h <= e_now e + e_drift e).
    { intros parents. destruct (parent_loop c h [] 0 parents) as [st|]; [|discriminate].
      destruct (N.leb_spec (cm_quorum c) st); [|discriminate]. destruct (e_batches_ok e); [|discriminate]. cbn [negb].
      destruct ((e_now e <? h_created h) && (e_drift e <? h_created h - e_now e)) eqn:T; [discriminate|].
      intros _. exists st. split; [reflexivity|]. split; [assumption|]. split; [reflexivity|].
      apply andb_false_iff in T as [T|T]; [apply N.ltb_ge in T; lia|apply N.ltb_ge in T; lia]. }
    unfold src. destruct (h_round h =? 1).
    - destruct (lookup_all (e_genesis e) (h_parents h)) as [parents|]; [|discriminate]. exists parents. split; [reflexivity|auto].
    - destruct (lookup_all (e_store e) (h_parents h)) as [parents|]; [|discriminate]. exists parents. split; [reflexivity|auto]. }
  destruct Hs as (parents & L & st & P & Q & Bo & Tm).
  destruct (parent_loop_spec c h parents [] 0 st P) as (P1 & P2 & P3).
  constructor; auto.
  - lia.
  - apply is_authority_In; [exact Wf|]. unfold is_authority. unfold cm_authority in A4. rewrite A4. reflexivity.
  - unfold MAX_HEADER_NUM_OF_BATCHES in A3. lia.
  - intros d w Hw. rewrite forallb_forall in A5. specialize (A5 _ Hw). cbn in A5. unfold number_of_workers in A5. lia.
  - exists parents. split; [|split; [|split]].
    + apply lookup_all_spec in L. unfold src in L.
      destruct (h_round h =? 1); exact L.
    + intros p Hp. destruct (P1 p Hp) as (X & Y & Z & _). auto.
    + exact P2.
    + unfold reached_quorum. apply N.leb_le. lia.
Qed.

Lemma run_wf evs : forall n, committee_wf (n_com n) -> Forall (fun e => match e with VNextEpoch c _ => built c | _ => True end) evs ->
  committee_wf (n_com (vrun n evs)).
Proof.
  assert (St : forall n e, committee_wf (n_com n) -> match e with VNextEpoch c _ => built c | _ => True end -> committee_wf (n_com (vstep n e))).
  { intros n e W H. assert (E : n_com (vstep n e) = n_com n \/ exists c b, e = VNextEpoch c b /\ n_com (vstep n e) = c).
    { destruct e; cbn [vstep]; auto.
      - left. unfold ev_request. destruct (cm_authority _ _); [|reflexivity]. destruct (negb _); [reflexivity|].
        destruct (if read_ok then _ else _); [destruct (_ =? _)|]; reflexivity.
      - left. unfold ev_lock. destruct (nth_error _ _) as [[]|]; try reflexivity. destruct (existsb _ _); [reflexivity|].
        destruct (n_cache _ _); [|reflexivity]. destruct (_ =? _).
        + destruct (ce_resp _) as [[]|]; try reflexivity. destruct ps; [reflexivity|]. destruct (_ =? _); [|reflexivity]. destruct (forallb _ _); reflexivity.
        + destruct (_ || _); reflexivity.
      - left. unfold ev_check. destruct (nth_error _ _) as [[]|]; try reflexivity. destruct (vote_checks _ _ _ _) as [[]|]; reflexivity.
      - left. unfold ev_read. destruct (nth_error _ _) as [[]|]; try reflexivity. destruct ok; reflexivity.
      - left. unfold ev_decide. destruct (nth_error _ _) as [[]|]; try reflexivity. destruct prev; [|reflexivity].
        destruct (_ <? _); [reflexivity|]. destruct (_ =? _); [|reflexivity]. destruct (_ <? _); [reflexivity|]. destruct (_ =? _); [|reflexivity].
        destruct (_ =? _); reflexivity.
      - left. unfold ev_persist. destruct (nth_error _ _) as [[]|]; reflexivity.
      - left. unfold ev_ack. destruct (nth_error _ _) as [[]|]; try reflexivity; destruct (acked _ _ true); try reflexivity; destruct (acked _ _ false); reflexivity.
      - left. destruct (other_op o); reflexivity.
      - left. destruct (other_msg m); reflexivity.
      - destruct (_ <? _); [|auto]. right. exists c, clear. auto. }
    destruct E as [-> |(c & b & -> & ->)]; [exact W|apply built_wf; exact H]. }
  induction evs as [|e evs IH]; intros n W H; [exact W|]. inversion H; subst. cbn. apply IH; auto.
Qed.

Lemma checked_step n e c en h : In (c, en, h) (n_checked (vstep n e)) ->
  In (c, en, h) (n_checked n) \/
  exists i ps, e = VCheck i en /\ c = n_com n /\ nth_error (n_tasks n) i = Some (TInner h ps) /\ vote_checks c en h ps = Some VPass.
Proof.
  intros H. destruct e; cbn [vstep] in H; auto.
  - left. revert H. unfold ev_request. destruct (cm_authority _ _); [|auto]. destruct (negb _); [auto|].
    destruct (if read_ok then _ else _); [destruct (_ =? _)|]; auto.
  - left. revert H. unfold ev_lock. destruct (nth_error _ _) as [[]|]; auto. destruct (existsb _ _); [auto|].
    destruct (n_cache _ _); [|auto]. destruct (_ =? _).
    + destruct (ce_resp _) as [[]|]; auto. destruct ps; [auto|]. destruct (_ =? _); [|auto]. destruct (forallb _ _); auto.
    + destruct (_ || _); auto.
  - revert H. unfold ev_check. destruct (nth_error (n_tasks n) i) as [t|] eqn:Hn; [|auto]. destruct t; auto.
    destruct (vote_checks (n_com n) e h0 ps) as [r|] eqn:Ev; [|auto]. destruct r; auto.
    cbn. intros H. apply in_app_iff in H as [H|[H|[]]]; [auto|]. injection H as <- <- <-. right.
    exists i, ps. auto.
  - left. revert H. unfold ev_read. destruct (nth_error _ _) as [[]|]; auto. destruct ok; auto.
  - left. revert H. unfold ev_decide. destruct (nth_error _ _) as [[]|]; auto. destruct prev; [|auto].
    destruct (_ <? _); [auto|]. destruct (_ =? _); [|auto]. destruct (_ <? _); [auto|]. destruct (_ =? _); [|auto].
    destruct (_ =? _); auto.
  - left. revert H. unfold ev_persist. destruct (nth_error _ _) as [[]|]; auto.
  - left. revert H. unfold ev_ack. destruct (nth_error _ _) as [[]|]; auto; destruct (acked _ _ true); auto; destruct (acked _ _ false); auto.
  - left. revert H. destruct (other_op o); auto.
  - left. revert H. destruct (other_msg m); auto.
  - left. revert H. destruct (_ <? _); auto.
Qed.
Lemma checked_hist evs : forall n c en h, In (c, en, h) (n_checked (vrun n evs)) ->
  In (c, en, h) (n_checked n) \/
  exists pre i ps post, evs = pre ++ VCheck i en :: post /\ c = n_com (vrun n pre) /\
     nth_error (n_tasks (vrun n pre)) i = Some (TInner h ps) /\ vote_checks c en h ps = Some VPass.
Proof.
  induction evs as [|e evs IH]; intros n c en h H; [auto|]. cbn in H.
  destruct (IH _ _ _ _ H) as [H'|(pre & i & ps & post & E & H')].
  - apply checked_step in H' as [H'|(i & ps & -> & -> & H2 & H3)]; [auto|].
    right. exists [], i, ps, evs. auto.
  - right. exists (e :: pre), i, ps, post. subst evs. auto.
Qed.

Lemma hist_real real evs : history_ok real evs -> Forall (ev_real real) evs.
Proof. exact (fun H => H). Qed.
Lemma hist_built real evs : history_ok real evs -> Forall (fun e => match e with VNextEpoch c _ => built c | _ => True end) evs.
Proof. apply Forall_impl. intros []; auto. Qed.

Section Thms.
Variables (real : header -> Prop) (c : committee) (disk : key -> option vinfo).
Hypothesis Inj : collision_free real.
Hypothesis Hc : built c.
Hypothesis Hd : forall a, disk (VOTES, a) = None.
Lemma hist_inv evs : history_ok real evs -> Inv real (vrun (vinit c disk) evs).
Proof.
  intros H. apply run_inv; [exact Inj|apply inv_init; [apply built_wf; exact Hc|exact Hd]|exact H].
Qed.

Lemma one_vote evs h1 h2 : history_ok real evs ->
  In h1 (n_out (vrun (vinit c disk) evs)) -> In h2 (n_out (vrun (vinit c disk) evs)) ->
  h_author h1 = h_author h2 -> h_epoch h1 = h_epoch h2 -> h_round h1 = h_round h2 -> h1 = h2.
Proof.
  intros H H1 H2 A E R. pose proof (hist_inv evs H) as I.
  pose proof (i_out real _ I) as O. pose proof (i_fresh real _ I) as F. rewrite Forall_forall in O, F.
  apply Inj.
  - apply (F h1). apply (O h1 H1).
  - apply (F h2). apply (O h2 H2).
  - apply (i_uniq real _ I); [apply in_app_iff; auto|apply in_app_iff; auto|repeat split; assumption].
Qed.

Lemma fresh_step n e h : n_fresh (vstep n e) = n_fresh n ++ [h] ->
  exists i prev, e = VDecide i /\ nth_error (n_tasks n) i = Some (TRead h prev) /\
    match prev with Some v => lexlt v (vi_of h) | None => True end.
Proof.
  assert (No : forall (l : list header) x, l = l ++ [x] -> False).
  { intros l x E. apply (f_equal (@length _)) in E. rewrite app_length in E. cbn in E. lia. }
  destruct e; cbn [vstep]; intros H; try (exfalso; exact (No _ _ H)).
  - exfalso. revert H. unfold ev_request. destruct (cm_authority _ _); [|apply No]. destruct (negb _); [apply No|].
    destruct (if read_ok then _ else _); [destruct (_ =? _)|]; apply No.
  - exfalso. revert H. unfold ev_lock. destruct (nth_error _ _) as [[]|]; try apply No. destruct (existsb _ _); [apply No|].
    destruct (n_cache _ _); [|apply No]. destruct (_ =? _).
    + destruct (ce_resp _) as [[]|]; try apply No. destruct ps; [apply No|]. destruct (_ =? _); [|apply No]. destruct (forallb _ _); apply No.
    + destruct (_ || _); apply No.
  - exfalso. revert H. unfold ev_check. destruct (nth_error _ _) as [[]|]; try apply No. destruct (vote_checks _ _ _ _) as [[]|]; apply No.
  - exfalso. revert H. unfold ev_read. destruct (nth_error _ _) as [[]|]; try apply No. destruct ok; apply No.
  - revert H. unfold ev_decide. destruct (nth_error (n_tasks n) i) as [[]|] eqn:Hn; try (intros H; exfalso; exact (No _ _ H)).
    destruct prev as [v|].
    + destruct (N.ltb_spec (h_epoch h0) (vi_epoch v)); [intros Hx; exfalso; exact (No _ _ Hx)|].
      destruct (N.eqb_spec (h_epoch h0) (vi_epoch v)).
      * destruct (N.ltb_spec (h_round h0) (vi_round v)); [intros Hx; exfalso; exact (No _ _ Hx)|].
        destruct (N.eqb_spec (h_round h0) (vi_round v)).
        -- destruct (h_digest h0 =? vi_digest v); intros Hx; exfalso; exact (No _ _ Hx).
        -- cbn. intros Hx. apply app_inv_head in Hx. injection Hx as ->. exists i, (Some v). repeat split; auto. right. cbn. lia.
      * cbn. intros Hx. apply app_inv_head in Hx. injection Hx as ->. exists i, (Some v). repeat split; auto. left. cbn. lia.
    + cbn. intros Hx. apply app_inv_head in Hx. injection Hx as ->. exists i, None. auto.
  - exfalso. revert H. unfold ev_persist. destruct (nth_error _ _) as [[]|]; apply No.
  - exfalso. revert H. unfold ev_ack. destruct (nth_error _ _) as [[]|]; try apply No; destruct (acked _ _ true); try apply No; destruct (acked _ _ false); apply No.
  - exfalso. revert H. destruct (other_op o); apply No.
  - exfalso. revert H. destruct (other_msg m); apply No.
  - exfalso. revert H. destruct (_ <? _); apply No.
Qed.

Lemma fresh_newer evs e h x : history_ok real evs ->
  let n := vrun (vinit c disk) evs in
  n_fresh (vstep n e) = n_fresh n ++ [h] -> In x (n_out n) -> h_author x = h_author h -> older x h.
Proof.
  intros H n Hf Hx A. destruct (fresh_step _ _ _ Hf) as (i & prev & -> & Hn & Hp).
  destruct (inv_fresh real Inj n i h prev (hist_inv evs H) Hn Hp) as [N _].
  specialize (N x). apply N; [|exact A]. apply in_app_iff. auto.
Qed.

(* every returned vote is either fresh at some point: it is in the record history *)
Lemma out_recorded evs h : history_ok real evs -> In h (n_out (vrun (vinit c disk) evs)) -> In h (n_fresh (vrun (vinit c disk) evs)).
Proof.
  intros H Hh. pose proof (i_out real _ (hist_inv evs H)) as O. rewrite Forall_forall in O. apply (O h Hh).
Qed.

Lemma durable evs h : history_ok real evs ->
  let n := vrun (vinit c disk) evs in In h (n_out n) ->
  match l_get (l_crash (n_db n)) (VOTES, h_author h) with
  | Some v => (h_epoch h < vi_epoch v) \/ (h_epoch h = vi_epoch v /\ h_round h < vi_round v) \/
              (h_epoch h = vi_epoch v /\ h_round h = vi_round v /\ h_digest h = vi_digest v)
  | None => h_epoch h < cm_epoch (n_com n)
  end.
Proof.
  intros H n Hh. pose proof (hist_inv evs H) as I. pose proof (i_out real _ I) as O. rewrite Forall_forall in O.
  destruct (O h Hh) as [_ S]. apply (crash_settled _ _ _ (proj1 (i_base real _ I))) in S. apply settled_get in S.
  unfold hk, vkey, covers, vord in S. fold n in S.
  destruct (l_get (l_crash (n_db n)) (VOTES, h_author h)) as [v|].
  - destruct S as [[S|S]|S]; [left; exact S|right; left; exact S|].
    right. right. rewrite <- S. auto.
  - exact S.
Qed.

Lemma votes_admissible evs h : history_ok real evs ->
  In h (n_out (vrun (vinit c disk) evs)) ->
  exists pre i e post, evs = pre ++ VCheck i e :: post /\ admissible (n_com (vrun (vinit c disk) pre)) e h.
Proof.
  intros H Hh. pose proof (hist_inv evs H) as I. pose proof (out_recorded evs h H Hh) as F.
  pose proof (i_fresh real _ I) as Fr. rewrite Forall_forall in Fr. destruct (Fr h F) as (_ & _ & c0 & en & Hk).
  destruct (checked_hist evs _ _ _ _ Hk) as [[]|(pre & i & ps & post & E & -> & _ & V)].
  exists pre, i, en, post. split; [exact E|]. eapply checks_admissible; [|exact V].
  apply run_wf; [apply built_wf; exact Hc|]. apply hist_built in H. rewrite E in H. apply Forall_app in H. apply H.
Qed.
End Thms.
