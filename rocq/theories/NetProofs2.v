(* Proofs for C47: the composition. *)
From Verif Require Import Util Types CommitteeModel CommitteeProofs CertModel CertProofs SlotProofs LdbModel
  VoteModel VoteSpec VoteProofs2 PropModel PropSpec PropProofs1 PropProofs2 SyncModel SyncSpec SyncProofs1 BullModel BullSpec
  Props_Cert Props_Vote Props_Prop Props_Fetch NetModel NetSpec NetProofs.
Local Open Scope N_scope.

Lemma Forall2_hits {A B} (R : A -> B -> Prop) l l' x : Forall2 R l l' -> In x l -> exists y, In y l' /\ R x y.
Proof. induction 1 as [|a b l l' H _ IH]; cbn; [intros []|]. intros [->|Hx]; [eauto|]. destruct (IH Hx) as (y & ? & ?). eauto. Qed.
Lemma vhist_app k a b : vhist k (a ++ b) = vhist k a ++ vhist k b.
Proof. unfold vhist. apply flat_map_app. Qed.
Lemma phist_app k a b : phist k (a ++ b) = phist k a ++ phist k b.
Proof. unfold phist. apply flat_map_app. Qed.
Lemma vhist_split k tr : forall a x b, vhist k tr = a ++ x :: b ->
  exists pre post, tr = pre ++ GVote k x :: post /\ vhist k pre = a.
Proof.
  induction tr as [|g tr IH]; intros a x b H; [destruct a; discriminate|].
  assert (Skip : vhist k tr = a ++ x :: b -> vhist k [g] = [] -> exists pre post, g :: tr = pre ++ GVote k x :: post /\ vhist k pre = a).
  { intros H' G. destruct (IH a x b H') as (pre & post & -> & E). exists (g :: pre), post. split; [reflexivity|].
    change (g :: pre) with ([g] ++ pre). rewrite vhist_app, G. exact E. }
  destruct g as [j e| | | | ]; try (apply Skip; [exact H|reflexivity]).
  destruct (N.eqb_spec j k) as [->|N].
  - cbn in H. rewrite N.eqb_refl in H. cbn in H. destruct a as [|a0 a].
    + cbn in H. injection H as <- _. exists [], tr. split; reflexivity.
    + cbn in H. injection H as <- H. destruct (IH a x b H) as (pre & post & -> & E). exists (GVote k e :: pre), post.
      split; [reflexivity|]. cbn. rewrite N.eqb_refl. cbn. f_equal. exact E.
  - apply N.eqb_neq in N. apply Skip; [|cbn; rewrite N; reflexivity]. cbn in H. rewrite N in H. exact H.
Qed.
Lemma in_vhist k tr e : In e (vhist k tr) -> exists pre post, tr = pre ++ GVote k e :: post.
Proof.
  intros H. apply in_split in H as (a & b & E). destruct (vhist_split k tr a e b E) as (pre & post & -> & _). eauto.
Qed.

Section Net.
Variable T : network.
Variable real : header -> Prop.
Hypothesis OK : network_ok T real.

Lemma exec_prefix a b : execution T real (a ++ b) -> execution T real a.
Proof. intros H pre g post ->. apply (H pre g (post ++ b)). rewrite <- app_assoc. reflexivity. Qed.
Lemma cm_wf e : committee_wf (nt_cm T e).
Proof. apply built_wf, (nk_cm _ _ OK). Qed.
Lemma exec_vote tr k e : execution T real tr -> In e (vhist k tr) ->
  match e with VRequest p h _ _ => real h /\ p <> nt_id T k | VNextEpoch c _ => c = nt_cm T (cm_epoch c) | _ => True end.
Proof.
  intros X H. apply in_vhist in H as (pre & post & E). destruct (X _ _ _ E) as [_ Y]. destruct e; auto.
Qed.
Lemma voter_com k tr : honest T k -> execution T real tr -> com_at T k tr = nt_cm T (cm_epoch (com_at T k tr)).
Proof.
  intros Hk X. unfold com_at, voter. apply (com_run (fun c => c = nt_cm T (cm_epoch c))).
  - cbn. apply (nk_start _ _ OK k Hk).
  - rewrite Forall_forall. intros e He. pose proof (exec_vote tr k e X He) as H. destruct e; auto.
Qed.
Lemma voter_hist k tr : execution T real tr -> history_ok real (vhist k tr).
Proof.
  intros X. unfold history_ok. rewrite Forall_forall. intros e He. pose proof (exec_vote tr k e X He) as H. destruct e; auto.
  - apply H.
  - rewrite H. apply (nk_cm _ _ OK).
Qed.
Lemma voter_built k : honest T k -> built (nt_com0 T k).
Proof. intros Hk. destruct (nk_start _ _ OK k Hk) as [-> _]. apply (nk_cm _ _ OK). Qed.
Lemma voted_real k tr h : honest T k -> execution T real tr -> In h (n_out (voter T k tr)) -> real h /\ h_author h <> nt_id T k.
Proof.
  intros Hk X H. unfold voter in H.
  assert (F : Forall (fun e => match e with VNextEpoch c _ => built c | VRequest p _ _ _ => p <> nt_id T k | _ => True end) (vhist k tr)).
  { rewrite Forall_forall. intros e He. pose proof (exec_vote tr k e X He) as Y. destruct e; auto; [apply Y|]. rewrite Y. apply (nk_cm _ _ OK). }
  rewrite (drop_own (nt_id T k)) in H by (try exact F; apply built_wf, voter_built; exact Hk).
  set (real' := fun h => real h /\ h_author h <> nt_id T k).
  assert (Hh : history_ok real' (filter (fun e => negb (own_request (nt_id T k) e)) (vhist k tr))).
  { unfold history_ok. rewrite Forall_forall. intros e He. apply filter_In in He as [He O]. pose proof (exec_vote tr k e X He) as Y.
    destruct e; auto.
    - cbn in O. apply negb_true_iff, N.eqb_neq in O. split; [apply Y|exact O].
    - rewrite Y. apply (nk_cm _ _ OK). }
  assert (Inj : collision_free real').
  { intros a b [Ha _] [Hb _]. apply (nk_inj _ _ OK); assumption. }
  destruct (nk_start _ _ OK k Hk) as (_ & Hd & _).
  pose proof (out_recorded real' _ _ Inj (voter_built k Hk) Hd _ _ Hh H) as Fr.
  pose proof (hist_inv real' _ _ Inj (voter_built k Hk) Hd _ Hh) as I. pose proof (VoteProofs.i_fresh real' _ I) as Fs.
  rewrite Forall_forall in Fs. exact (proj1 (Fs _ Fr)).
Qed.
Lemma sent_real k tr h : honest T k -> execution T real tr -> In h (p_sent (proposer T k tr)) -> real h /\ h_author h = nt_id T k.
Proof.
  intros Hk X H. split.
  - revert X H. induction tr as [|g tr IH] using rev_ind; intros X H.
    + unfold proposer in H. cbn in H. destruct H.
    + pose proof (exec_prefix _ _ X) as X'. pose proof (X tr g [] eq_refl) as G.
      destruct g as [j e|j e|j gc x|j gc l|j h0 vs v]; try (apply IH; [exact X'|]; revert H; unfold proposer; rewrite phist_app; cbn;
        rewrite app_nil_r; auto; fail).
      destruct (N.eqb_spec j k) as [->|N].
      * destruct G as (_ & _ & G). apply G. exact H.
      * apply IH; [exact X'|]. revert H. unfold proposer. rewrite phist_app. cbn. apply N.eqb_neq in N. rewrite N. cbn.
        rewrite app_nil_r. auto.
  - unfold proposer in H. destruct (nk_start _ _ OK k Hk) as (_ & _ & Hd).
    pose proof (sent_mine (nt_id T k) (nt_epoch0 T k) (nt_prim0 T k) (nt_pdisk T k) (phist k tr) Hd) as S.
    rewrite Forall_forall in S. apply (S h H).
Qed.
Lemma signed_mono k a b h : signed_hdr T k a h -> signed_hdr T k (a ++ b) h.
Proof.
  unfold signed_hdr, voter, proposer. rewrite vhist_app, phist_app. intros [H|H].
  - left. unfold vrun. rewrite fold_left_app. apply (out_mono_run (vhist k b)). exact H.
  - right. rewrite prun_app. apply sent_mono_run. exact H.
Qed.
Lemma quorum_mono a b h : quorum_signed T a h -> quorum_signed T (a ++ b) h.
Proof.
  intros (K & H1 & H2 & H3 & H4). exists K. split; [exact H1|]. split; [exact H2|]. split; [exact H3|].
  intros k Hk Hh. apply signed_mono. auto.
Qed.
(* the proposer's history satisfies what C29 asks *)
Lemma quiet_along k tr : execution T real tr ->
  along quiet_start (pinit (nt_id T k) (nt_epoch0 T k) (nt_prim0 T k) (nt_pdisk T k)) (phist k tr).
Proof.
  intros X. revert X. induction tr as [|g tr IH] using rev_ind; intros X; [exact I|].
  pose proof (exec_prefix _ _ X) as X'. pose proof (X tr g [] eq_refl) as G. specialize (IH X').
  rewrite phist_app. destruct g as [j e|j e|j gc x|j gc l|j h0 vs v]; cbn; try (rewrite app_nil_r; exact IH).
  destruct (N.eqb_spec j k) as [->|N]; [|rewrite app_nil_r; exact IH].
  apply along_app. split; [exact IH|]. cbn. split; [|exact I]. destruct G as (_ & G & _). exact G.
Qed.
(* an honest validator signs one header per slot *)
Lemma signed_once k tr h1 h2 : honest T k -> execution T real tr -> signed_hdr T k tr h1 -> signed_hdr T k tr h2 ->
  h_author h1 = h_author h2 -> h_epoch h1 = h_epoch h2 -> h_round h1 = h_round h2 -> h1 = h2.
Proof.
  intros Hk X S1 S2 A E R. destruct (nk_start _ _ OK k Hk) as (_ & Hd & Hp). destruct S1 as [S1|S1], S2 as [S2|S2].
  - exact (C06_one_vote_per_slot real _ _ (nk_inj _ _ OK) (voter_built k Hk) Hd _ _ _ (voter_hist k tr X) S1 S2 A E R).
  - exfalso. apply (proj2 (voted_real k tr h1 Hk X S1)). rewrite A. apply (sent_real k tr h2 Hk X S2).
  - exfalso. apply (proj2 (voted_real k tr h2 Hk X S2)). rewrite <- A. apply (sent_real k tr h1 Hk X S1).
  - exact (C29_one_header_per_round _ _ _ _ _ _ _ Hp (quiet_along k tr X) S1 S2 E R).
Qed.
Lemma signed_real k tr h : honest T k -> execution T real tr -> signed_hdr T k tr h -> real h.
Proof. intros Hk X [H|H]; [apply (voted_real k tr h Hk X H)|apply (sent_real k tr h Hk X H)]. Qed.

(* among the signers of a quorum there is an honest one that is not the author *)
Lemma id_inj e j k : In j (bls_keys (nt_cm T e)) -> In k (bls_keys (nt_cm T e)) -> nt_id T j = nt_id T k -> j = k.
Proof.
  intros Hj Hk E. destruct (nk_id _ _ OK e j Hj) as (a & A1 & A2), (nk_id _ _ OK e k Hk) as (b & B1 & B2).
  rewrite E in A1. rewrite A1 in B1. injection B1 as ->. congruence.
Qed.
Lemma other_signer e K a : NoDup K -> incl K (bls_keys (nt_cm T e)) -> cm_quorum (nt_cm T e) <= N.of_nat (length K) ->
  exists k, In k K /\ honest T k /\ nt_id T k <> a.
Proof.
  intros ND Inc Q. pose proof (nk_bound _ _ OK e) as F. pose proof (wf_size _ (cm_wf e)) as Sz. rewrite (wf_quorum _ (cm_wf e)) in Q.
  set (FK := interN (bls_keys (nt_cm T e)) (nt_faulty T)) in *.
  assert (Hx : exists F', (length F' <= 1)%nat /\ forall k, In k K -> nt_id T k = a -> In k F').
  { destruct (in_dec N.eq_dec a (map (nt_id T) K)) as [H|H].
    - apply in_map_iff in H as (k0 & E0 & H0). exists [k0]. split; [cbn; lia|]. intros k Hk Ek. left.
      apply (id_inj e); auto. congruence.
    - exists []. split; [cbn; lia|]. intros k Hk Ek. exfalso. apply H. apply in_map_iff. eauto. }
  destruct Hx as (F' & L & HF). destruct (longer_has_other K (F' ++ FK) ND) as (k & Hk & Nk).
  - rewrite app_length. clearbody FK. lia.
  - exists k. split; [exact Hk|]. rewrite in_app_iff in Nk. split.
    + intros Hf. apply Nk. right. apply interN_In. split; [apply Inc; exact Hk|exact Hf].
    + intros E. apply Nk. left. apply HF; assumption.
Qed.
(* so it was voted for after all checks passed at an honest validator *)
Lemma honest_check tr h : execution T real tr -> quorum_signed T tr h ->
  exists k pre i en post, honest T k /\ In k (bls_keys (nt_cm T (h_epoch h))) /\ nt_id T k <> h_author h /\
    tr = pre ++ GVote k (VCheck i en) :: post /\ admissible (nt_cm T (h_epoch h)) en h.
Proof.
  intros X (K & ND & Inc & Q & S). destruct (other_signer (h_epoch h) K (h_author h) ND Inc Q) as (k & Hk & Hh & Na).
  destruct (S k Hk Hh) as [V|V]; [|exfalso; apply Na; symmetry; apply (sent_real k tr h Hh X V)].
  destruct (nk_start _ _ OK k Hh) as (_ & Hd & _).
  destruct (C28_votes_only_for_admissible_headers real _ _ (nk_inj _ _ OK) (voter_built k Hh) Hd _ _ (voter_hist k tr X) V)
    as (pre & i & en & post & E & A).
  destruct (vhist_split k tr pre _ post E) as (p & q & Et & Ep). exists k, p, i, en, q.
  split; [exact Hh|]. split; [apply Inc; exact Hk|]. split; [exact Na|]. split; [exact Et|].
  assert (Ec : com_at T k p = nt_cm T (cm_epoch (com_at T k p))).
  { apply voter_com; [exact Hh|]. rewrite Et in X. apply (exec_prefix _ _ X). }
  unfold com_at, voter in Ec. rewrite Ep in Ec. rewrite (ad_epoch _ _ _ A), <- Ec. exact A.
Qed.
Lemma signed_digest j pre d h : honest T j -> execution T real pre -> has_signed T j pre d -> real h -> h_digest h = d -> signed_hdr T j pre h.
Proof.
  intros Hj X (g & E & S) Rh Ed. assert (g = h) as <-; [|exact S].
  apply (nk_inj _ _ OK); [apply (signed_real j pre g Hj X S)|exact Rh|congruence].
Qed.

(* a certificate that passed the signature check at an honest validator *)
Lemma checked_quorum k pre gc x y s : honest T k -> execution T real pre -> unforged T real k pre x ->
  aggregated_signature (c_state x) = Some s -> c_header y = c_header x -> c_signers y = c_signers x -> c_state y = VerifiedDirectly s ->
  signature_checked (nt_averify T) (com_at T k pre) gc y -> quorum_signed T pre (c_header x).
Proof.
  intros Hk X [Rx U] A Eh Es St (_ & Ep & _ & Q & s' & St' & V). rewrite St in St'. injection St' as <-.
  pose proof (voter_com k pre Hk X) as Ec. unfold c_epoch in Ep. rewrite Eh in Ep. rewrite <- Ep in Ec.
  assert (Sb : signed_by y (bls_keys (com_at T k pre)) = signed_by x (bls_keys (com_at T k pre))) by (unfold signed_by; rewrite Es; reflexivity).
  rewrite Sb in *. unfold c_digest in V. rewrite Eh in V. specialize (U s A V).
  destruct (signed_by x (bls_keys (com_at T k pre))) as [w K] eqn:E. cbn [fst snd] in *.
  apply walk_any in E as [-> Sub]. rewrite Ec in Sub, Q. exists K.
  split; [eapply sublist_NoDup; [exact Sub|apply wf_keys_NoDup, cm_wf]|]. split; [intros z; apply sublist_In; exact Sub|].
  split; [exact Q|]. intros j Hj Hh. eapply signed_digest; eauto.
Qed.
Lemma own_quorum k pre h vs v z : honest T k -> execution T real pre -> real h -> h_epoch h = cm_epoch (com_at T k pre) ->
  (forall w a, In w (vs ++ [v]) -> cm_authority (com_at T k pre) (v_author w) = Some a ->
     nt_verify T (v_digest w) (v_sig w) (a_key a) = true -> honest T (a_key a) -> has_signed T (a_key a) pre (v_digest w)) ->
  snd (votes_append (nt_aggregate T) (nt_verify T) (nt_dsig T) (com_at T k pre) h
         (fst (votes_run (nt_aggregate T) (nt_verify T) (nt_dsig T) (com_at T k pre) h votes_agg_new vs)) v) = Ok (Some z) ->
  c_header z = h /\ quorum_signed T pre h.
Proof.
  intros Hk X Rh Ee U E. pose proof (voter_com k pre Hk X) as Ec. rewrite <- Ee in Ec.
  assert (B : built (com_at T k pre)) by (rewrite Ec; apply (nk_cm _ _ OK)).
  pose proof (C03_certificate_needs_quorum _ _ _ _ _ _ _ _ B E) as C. cbv zeta in C.
  destruct C as (_ & C2 & _ & C4 & C5 & C6 & _ & C8 & _). split; [exact C5|].
  destruct (C04_weight_is_number_of_keys z (bls_keys (com_at T k pre)) (wf_keys_NoDup _ (built_wf _ B))) as (W1 & W2 & W3).
  exists (snd (signed_by z (bls_keys (com_at T k pre)))). split; [exact W2|]. split; [rewrite <- Ec; exact W3|].
  split; [rewrite <- Ec, <- W1, C6; exact C4|]. intros j Hj Hh. apply C8 in Hj as (w & a & Hw & Ha & <-).
  destruct (C2 w Hw) as (Hin & Hd & a' & Ha' & Hv). rewrite Ha in Ha'. injection Ha' as <-. rewrite <- Hd in Hv.
  apply (signed_digest (a_key a) pre (v_digest w)); auto.
Qed.

(* every certificate an honest validator accepted, from round 1 on, is quorum signed; round 0 ones are genesis *)
Definition sound (tr : list gev) (h : header) : Prop := (h_round h = 0 /\ h_parents h = []) \/ quorum_signed T tr h.
Lemma direct_sound k pre gc x y s : honest T k -> execution T real pre -> unforged T real k pre x ->
  aggregated_signature (c_state x) = Some s ->
  check_direct (nt_averify T) (nt_genesis T (com_at T k pre)) (com_at T k pre) gc (set_state x (Unverified s)) = Ok y ->
  sound pre (c_header y) /\ c_header y = c_header x.
Proof.
  intros Hk X U A H. destruct (direct_ok _ _ _ _ (set_state x (Unverified s)) s _ eq_refl H) as (E1 & E2 & D). cbn in E1, E2.
  split; [|exact E1]. destruct D as [D|(-> & R0 & g & G1 & G2)].
  - right. rewrite E1. eapply (checked_quorum k pre gc x y s); eauto.
    rewrite (direct_state _ _ _ _ (set_state x (Unverified s)) s _ eq_refl H); [reflexivity|].
    destruct D as (_ & _ & _ & _ & s' & D & _). unfold is_verified. rewrite D. reflexivity.
  - left. cbn. destruct (nk_genesis _ _ OK _ _ G1) as (Rg & _ & Pg). split; [exact R0|].
    assert (E : c_header g = c_header x) by (apply (nk_inj _ _ OK); [exact Rg|apply U|exact G2]).
    unfold c_parents in Pg. rewrite E in Pg. exact Pg.
Qed.
Definition gained (k : N) (tr : list gev) (c : cert) : Prop := accepted T k tr c.
Lemma parent_sound tr h q :
  (forall pre k c, (length pre < length tr)%nat -> honest T k -> execution T real pre -> accepted T k pre c ->
     real (c_header c) /\ sound pre (c_header c)) ->
  execution T real tr -> sound tr h -> real q -> In (h_digest q) (h_parents h) -> sound tr q /\ h_round q + 1 = h_round h /\ h_epoch q = h_epoch h.
Proof.
  intros IH X [[_ S]|S] Rq Hq; [rewrite S in Hq; destruct Hq|].
  destruct (honest_check tr h X S) as (k & pre & i & en & post & Hk & _ & _ & Et & A).
  destruct (ad_parents _ _ _ A) as (ps & F & P & _). destruct (Forall2_hits _ _ _ _ F Hq) as (p & Hp & Ep).
  destruct (P p Hp) as (P1 & P2 & _). pose proof (X pre _ post Et) as [_ [Gs Gg]].
  destruct (N.eqb_spec (h_round h) 1) as [R1|R1].
  - destruct (Gg _ _ Ep) as [Ed Hg]. destruct (nk_genesis _ _ OK _ _ Hg) as (Rg & R0 & Pg).
    assert (E : c_header p = q) by (apply (nk_inj _ _ OK); assumption). subst q. split; [left; split; assumption|].
    split; [exact P2|exact P1].
  - destruct (Gs _ _ Ep) as [Ed Hg].
    assert (X' : execution T real pre) by (rewrite Et in X; apply (exec_prefix _ _ X)).
    destruct (IH pre k p) as [Rp Sp]; auto. { rewrite Et, app_length. cbn. lia. }
    assert (E : c_header p = q) by (apply (nk_inj _ _ OK); assumption). subst q. split; [|split; [exact P2|exact P1]].
    destruct Sp as [Sp|Sp]; [left; exact Sp|right]. rewrite Et. apply quorum_mono. exact Sp.
Qed.
Lemma accepted_sound tr : forall k c, honest T k -> execution T real tr -> accepted T k tr c -> real (c_header c) /\ sound tr (c_header c).
Proof.
  induction tr as [tr IH] using (induction_ltof1 _ (@length gev)). unfold ltof in IH. intros k c Hk X (pre & g & post & Et & Hc).
  pose proof (X _ _ _ Et) as G. pose proof X as X0. rewrite Et in X0. pose proof (exec_prefix _ _ X0) as X'. clear X0.
  assert (Lt : (length pre < length tr)%nat) by (rewrite Et, app_length; cbn; lia).
  assert (Up : sound pre (c_header c) -> sound tr (c_header c)).
  { intros [S|S]; [left; exact S|right]. rewrite Et. apply quorum_mono. exact S. }
  destruct g as [j e|j e|j gc x|j gc l|j h0 vs v]; cbn [gain] in Hc; try (destruct Hc; fail).
  - destruct (N.eqb_spec j k) as [->|]; [|destruct Hc]. destruct G as [_ U].
    destruct (validate_received x) as [y|] eqn:V; [|destruct Hc]. unfold validate_received in V.
    destruct (aggregated_signature (c_state x)) as [s|] eqn:A; [|discriminate]. injection V as <-.
    destruct (check_direct _ _ _ gc (set_state x (Unverified s))) as [z|] eqn:D; [|destruct Hc].
    apply filter_In in Hc as [[->|[]] _]. destruct (direct_sound k pre gc x c s Hk X' U A D) as [S E].
    split; [rewrite E; apply U|apply Up; exact S].
  - destruct (N.eqb_spec j k) as [->|]; [|destruct Hc]. destruct G as [_ U].
    destruct (process_fetched _ _ _ _ gc l) as [out|] eqn:P; [|destruct Hc]. apply filter_In in Hc as [Hc V].
    pose proof (C30_accepted_batch_is_unchanged _ _ _ _ _ _ _ P) as [Eh _].
    assert (Rr : forall y, In y l -> real (c_header y)).
    { intros y Hy. rewrite Forall_forall in U. apply (U y Hy). }
    assert (Ro : forall y, In y out -> real (c_header y)).
    { intros y Hy. assert (Hin : In (c_header y) (map c_header l)) by (rewrite <- Eh; apply in_map; exact Hy).
      apply in_map_iff in Hin as (z & Ez & Hz). rewrite <- Ez. auto. }
    assert (Ac : acyclic l).
    { destruct (nk_acyclic _ _ OK) as [rank Hr]. exists rank. intros x y Hx Hy. apply Hr; auto. }
    assert (Gen : forall g x, In g (nt_genesis T (com_at T k pre)) -> In x l -> c_digest g = c_digest x -> c_parents x = []).
    { intros g x Hg Hx E. destruct (nk_genesis _ _ OK _ _ Hg) as (Rg & _ & Pg). unfold c_parents in *.
      rewrite <- (nk_inj _ _ OK _ _ Rg (Rr x Hx) E). exact Pg. }
    pose proof (C30_verified_means_backed _ _ _ _ _ _ _ P Ac Gen c Hc V) as B.
    split; [auto|]. apply Up. clear Hc V Up.
    assert (IH' : forall pre' k' c', (length pre' < length pre)%nat -> honest T k' -> execution T real pre' -> accepted T k' pre' c' ->
       real (c_header c') /\ sound pre' (c_header c')).
    { intros pre' k' c' L. apply IH. lia. }
    induction B as [y Hy Ck|y z Hy B IHB Pz].
    + right. apply process_fetched_iff in P as (l' & R & O). pose proof (compose_outcome _ _ _ _ _ _ _ _ _ R O) as F.
      destruct (Forall2_In_r _ _ _ _ F Hy) as (x & Hx & s & A & Ho). destruct (outcome_same _ _ _ _ _ _ _ _ _ Ho) as [E1 E2].
      rewrite E1. rewrite Forall_forall in U. apply (checked_quorum k pre gc x y s); auto.
      destruct Ck as (_ & _ & _ & _ & s' & Cs & _).
      unfold SyncProofs1.outcome in Ho. destruct (requires_direct (nt_interval T) (flat_map c_parents l) (set_state x (Unverified s))).
      * rewrite (direct_state _ _ _ _ (set_state x (Unverified s)) s _ eq_refl Ho); [reflexivity|]. unfold is_verified. rewrite Cs. reflexivity.
      * cbn in Ho. injection Ho as <-. discriminate.
    + apply (parent_sound pre (c_header z) (c_header y) IH' X' IHB (Ro y Hy) Pz).
  - destruct (j =? k) eqn:Ej; cbn [andb] in Hc; [|destruct Hc]. apply N.eqb_eq in Ej. subst j.
    destruct (N.eqb_spec (h_epoch h0) (cm_epoch (com_at T k pre))) as [Ee|]; [|destruct Hc]. destruct G as (_ & Rh & U).
    destruct (snd (votes_append _ _ _ _ _ _ v)) as [[z|]|] eqn:E; try (destruct Hc; fail). destruct Hc as [->|[]].
    destruct (own_quorum k pre h0 vs v c Hk X' Rh Ee U E) as [E1 Q]. rewrite E1. split; [exact Rh|].
    right. rewrite Et. apply quorum_mono. exact Q.
Qed.
Lemma dag_quorum e tr h : execution T real tr -> certified_dag T e tr h -> real h /\ quorum_signed T tr h.
Proof.
  intros X (_ & R & k & c & Hk & Ha & <-). destruct (accepted_sound tr k c Hk X Ha) as [Rc [[S _]|S]]; [lia|auto].
Qed.
Lemma certified_dag_ok e tr : execution T real tr -> dag_ok (nt_cm T e) (certified_dag T e tr).
Proof.
  intros X. constructor.
  - intros h H. destruct (dag_quorum e tr h X H) as [_ Q]. destruct (honest_check tr h X Q) as (k & pre & i & en & post & _ & _ & _ & _ & A).
    destruct H as (<- & _). apply (ad_author _ _ _ A).
  - intros h1 h2 H1 H2 E. apply (nk_inj _ _ OK); [apply (dag_quorum e tr h1 X H1)|apply (dag_quorum e tr h2 X H2)|exact E].
  - intros h1 h2 H1 H2 R A. destruct (dag_quorum e tr h1 X H1) as [_ (K1 & N1 & I1 & Q1 & S1)].
    destruct (dag_quorum e tr h2 X H2) as [_ (K2 & N2 & I2 & Q2 & S2)]. destruct H1 as (E1 & _), H2 as (E2 & _).
    rewrite E1 in I1, Q1. rewrite E2 in I2, Q2. pose proof (cm_wf e) as W. pose proof (nk_bound _ _ OK e) as F.
    assert (Sz : cm_size (nt_cm T e) = N.of_nat (length (bls_keys (nt_cm T e)))) by (unfold cm_size, bls_keys, bm_keys; rewrite map_length; reflexivity).
    pose proof (wf_size _ W) as Sz1. rewrite (wf_quorum _ W) in Q1, Q2.
    pose proof (inter_lower K1 K2 (bls_keys (nt_cm T e)) N1 N2 I1 I2) as HI.
    destruct (longer_has_other (interN K1 K2) (interN (bls_keys (nt_cm T e)) (nt_faulty T))) as (k & Hk & Nk).
    + apply NoDup_filter. exact N1.
    + set (a := interN K1 K2) in *. set (b := interN _ (nt_faulty T)) in *. clearbody a b. lia.
    + apply interN_In in Hk as [Hk1 Hk2]. assert (Hh : honest T k).
      { intros Hf. apply Nk. apply interN_In. split; [apply I1; exact Hk1|exact Hf]. }
      apply (signed_once k tr h1 h2 Hh X); auto. congruence.
  - intros h H R. destruct (dag_quorum e tr h X H) as [_ Q].
    destruct (honest_check tr h X Q) as (k & pre & i & en & post & Hk & _ & _ & Et & A).
    destruct H as (Ee & _). destruct (ad_parents _ _ _ A) as (ps & F & P & ND & RQ). rewrite Ee in RQ.
    exists (map c_header ps). rewrite map_map. change (map (fun x => h_author (c_header x)) ps) with (map c_origin ps).
    split; [exact ND|]. split; [unfold reached_quorum in RQ; apply N.leb_le; exact RQ|].
    intros q Hq. apply in_map_iff in Hq as (p & <- & Hp). destruct (P p Hp) as (P1 & P2 & _).
    destruct (Forall2_In_r _ _ _ _ F Hp) as (d & Hd & Ep). destruct (N.eqb_spec (h_round h) 1) as [R1|R1]; [lia|].
    pose proof (X pre _ post Et) as [_ [Gs _]]. destruct (Gs _ _ Ep) as [Ed Ha]. split; [|split].
    + split; [unfold c_epoch in P1; congruence|]. split; [unfold c_round in P2; lia|]. exists k, p. split; [exact Hk|]. split; [|reflexivity].
      destruct Ha as (a & g & b & -> & Ha). exists a, g, (b ++ GVote k (VCheck i en) :: post). split; [|exact Ha].
      rewrite Et, <- app_assoc. reflexivity.
    + exact P2.
    + unfold c_digest in Ed. rewrite Ed. exact Hd.
Qed.
End Net.
