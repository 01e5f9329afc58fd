(* Proofs for C47. *)
From Verif Require Import Util Types CommitteeModel CommitteeProofs CertModel CertProofs SlotProofs LdbModel LdbProofs LdbHist LdbChain
  VoteModel VoteSpec VoteProofs VoteProofs2 PropModel PropSpec PropProofs1 PropProofs2 SyncModel SyncSpec SyncProofs1 BullSpec
  Props_Cert Props_Vote Props_Prop Props_Fetch NetModel NetSpec.
Local Open Scope N_scope.

(* ---- the vote service ---- *)
Lemma com_step n e : n_com (vstep n e) = n_com n \/ exists c b, e = VNextEpoch c b /\ n_com (vstep n e) = c.
Proof.
  destruct e; cbn [vstep]; auto.
  - left. unfold ev_request. destruct (cm_authority _ _); [|reflexivity]. destruct (negb _); [reflexivity|].
    destruct (if read_ok then _ else _); [destruct (_ =? _)|]; reflexivity.
  - left. unfold ev_lock. destruct (nth_error _ _) as [[]|]; try reflexivity. destruct (existsb _ _); [reflexivity|].
    destruct (n_cache _ _); [|reflexivity]. destruct (_ =? _).
    + destruct (ce_resp _) as [[]|]; try reflexivity. destruct ps; [reflexivity|]. destruct (_ =? _); [|reflexivity]. destruct (forallb _ _); reflexivity.
    + destruct (_ || _); reflexivity.
  - left. unfold ev_check. destruct (nth_error _ _) as [[]|]; try reflexivity. destruct (vote_checks _ _ _ _) as [[]|]; reflexivity.
  - left. unfold ev_read. destruct (nth_error _ _) as [[]|]; try reflexivity. destruct ok; reflexivity.
  - left. unfold ev_decide. destruct (nth_error _ _) as [[]|]; try reflexivity. destruct prev; [|reflexivity].
    destruct (_ <? _); [reflexivity|]. destruct (_ =? _); [|reflexivity]. destruct (_ <? _); [reflexivity|]. destruct (_ =? _); [|reflexivity].
    destruct (_ =? _); reflexivity.
  - left. unfold ev_persist. destruct (nth_error _ _) as [[]|]; reflexivity.
  - left. unfold ev_ack. destruct (nth_error _ _) as [[]|]; try reflexivity; destruct (acked _ _ true); try reflexivity; destruct (acked _ _ false); reflexivity.
  - left. destruct (other_op o); reflexivity.
  - left. destruct (other_msg m); reflexivity.
  - destruct (_ <? _); [|auto]. right. exists c, clear. auto.
Qed.
Lemma com_run (P : committee -> Prop) evs : forall n, P (n_com n) ->
  Forall (fun e => match e with VNextEpoch c _ => P c | _ => True end) evs -> P (n_com (vrun n evs)).
Proof.
  induction evs as [|e evs IH]; intros n H F; [exact H|]. inversion F; subst. cbn. apply IH; [|assumption].
  destruct (com_step n e) as [-> |(c & b & -> & ->)]; assumption.
Qed.
Lemma out_mono n e : incl (n_out n) (n_out (vstep n e)).
Proof.
  destruct e; cbn [vstep]; unfold ev_request, ev_lock, ev_check, ev_read, ev_decide, ev_persist, ev_ack, finish;
  repeat match goal with |- context [match ?x with _ => _ end] => destruct x end; try apply incl_refl;
  cbn; apply incl_appl, incl_refl.
Qed.
Lemma out_mono_run evs : forall n, incl (n_out n) (n_out (vrun n evs)).
Proof. induction evs as [|e evs IH]; intros n; [apply incl_refl|]. cbn. eapply incl_tran; [apply out_mono|apply IH]. Qed.

(* a request that names the node itself as author is dropped *)
Definition own_request (me : N) (e : vev) : bool := match e with VRequest _ h _ _ => h_author h =? me | _ => false end.
Lemma authority_id c i a : committee_wf c -> cm_authority c i = Some a -> a_id a = i.
Proof. intros W H. apply (wf_id _ W i a). apply bm_lookup_In; [apply W|exact H]. Qed.
Lemma drop_own me evs : forall n, committee_wf (n_com n) ->
  Forall (fun e => match e with VNextEpoch c _ => built c | VRequest p _ _ _ => p <> me | _ => True end) evs ->
  vrun n evs = vrun n (filter (fun e => negb (own_request me e)) evs).
Proof.
  induction evs as [|e evs IH]; intros n W F; [reflexivity|]. inversion F as [|? ? F1 F2]; subst. cbn [vrun fold_left filter].
  assert (W' : committee_wf (n_com (vstep n e))).
  { destruct (com_step n e) as [-> |(c & b & -> & ->)]; [exact W|apply built_wf; exact F1]. }
  destruct (own_request me e) eqn:O; cbn [negb].
  - destruct e; try discriminate. cbn in O. apply N.eqb_eq in O. fold (vrun (vstep n (VRequest peer h ps read_ok)) evs).
    assert (E : vstep n (VRequest peer h ps read_ok) = n).
    { cbn. unfold ev_request. destruct (cm_authority (n_com n) (h_author h)) as [a|] eqn:A; [|reflexivity].
      apply (authority_id _ _ _ W) in A. destruct (N.eqb_spec peer (a_id a)) as [E|]; [|reflexivity]. cbn in F1. congruence. }
    rewrite E. apply IH; assumption.
  - cbn [fold_left]. fold (vrun (vstep n e) evs). rewrite IH by assumption. reflexivity.
Qed.

(* ---- the proposer: its headers carry its own identifier ---- *)
Definition hmine (me : N) (x : option pval) : Prop := match x with Some (VH v) => h_author v = me | _ => True end.
Record AI (n : pnode) : Prop := mkAI {
  ai_db : Forall (hmine (p_me n)) (l_mem (p_db n) KP :: chain KP (p_db n));
  ai_task : Forall (fun h => h_author h = p_me n) (task_hdr (p_task n));
  ai_sent : Forall (fun h => h_author h = p_me n) (p_sent n)
}.
Lemma hmine_quiet me d d' : quietk KP d d' -> Forall (hmine me) (l_mem d KP :: chain KP d) -> Forall (hmine me) (l_mem d' KP :: chain KP d').
Proof.
  intros Q H. inversion H; subst. rewrite (qk_mem _ _ _ Q). constructor; [assumption|].
  eapply subl_Forall; [apply (qk_chain _ _ _ Q)|assumption].
Qed.
Lemma hmine_get me d h : Forall (hmine me) (l_mem d KP :: chain KP d) -> last_proposed d = Some h -> h_author h = me.
Proof.
  intros H L. apply last_get in L. rewrite Forall_forall in H.
  assert (Hin : In (Some (VH h)) (l_mem d KP :: chain KP d)).
  { destruct (get_or d) as [[_ E]|E]; rewrite E in L; [right; left; exact L|left; exact L]. }
  apply (H _ Hin).
Qed.
Lemma hmine_store me d h : h_author h = me -> Forall (hmine me) (l_mem d KP :: chain KP d) ->
  Forall (hmine me) (l_mem (l_do (Ins KP (VH h)) d) KP :: chain KP (l_do (Ins KP (VH h)) d)).
Proof.
  intros L H. assert (Mem : l_mem (l_do (Ins KP (VH h)) d) KP = Some (VH h)) by reflexivity.
  assert (Ch : chain KP (l_do (Ins KP (VH h)) d) = chain KP d ++ [Some (VH h)]) by (rewrite chain_do; reflexivity).
  rewrite Mem, Ch. inversion H; subst. constructor; [exact eq_refl|]. rewrite Forall_app. split; [assumption|]. repeat constructor.
Qed.
Lemma hmine_clear me d : Forall (hmine me) (l_mem d KP :: chain KP d) ->
  Forall (hmine me) (l_mem (l_do (Clr LASTP) d) KP :: chain KP (l_do (Clr LASTP) d)).
Proof.
  intros H. assert (Mem : l_mem (l_do (Clr LASTP) d) KP = None) by reflexivity.
  assert (Ch : chain KP (l_do (Clr LASTP) d) = chain KP d ++ [None]) by (rewrite chain_do; reflexivity).
  rewrite Mem, Ch. inversion H; subst. constructor; [exact I|]. rewrite Forall_app. split; [assumption|]. repeat constructor.
Qed.
Lemma hmine_crash me d : l_full d = true -> Forall (hmine me) (l_mem d KP :: chain KP d) ->
  Forall (hmine me) (l_mem (l_crash d) KP :: chain KP (l_crash d)).
Proof.
  intros F H. rewrite mem_crash by exact F. rewrite chain_crash_eq.
  inversion H as [|? ? _ H2]; subst. unfold chain in H2. inversion H2; subst. repeat constructor; assumption.
Qed.
Lemma me_step n e : p_me (pstep n e) = p_me n.
Proof.
  destruct e; cbn [pstep]; unfold ev_parents, ev_propose, ev_repropose, ev_store, ev_ppersist, ev_pack, ev_send, ev_recv, ev_clock, ev_cert,
    ev_cpersist, ev_cack; repeat match goal with |- context [match ?x with _ => _ end] => destruct x end; reflexivity.
Qed.
Lemma ai_quiet n d' nx t ch cs ext rel r pr e : AI n -> quietk KP (p_db n) d' -> Forall (fun h => h_author h = p_me n) (task_hdr t) ->
  AI (mkP (p_me n) e d' nx r pr t ch cs (p_sent n) ext rel).
Proof. intros [A B C] Q H. constructor; cbn; [eapply hmine_quiet; eassumption|exact H|exact C]. Qed.
Ltac aq := match goal with A : AI ?n |- _ => refine (ai_quiet n _ _ _ _ _ _ _ _ _ _ A _ _) end.
Lemma ai_step n e : Inv0 (p_db n) (p_next n) -> AI n -> AI (pstep n e).
Proof.
  intros Z A. pose proof (z_base _ _ Z) as Bs. pose proof (ai_db n A) as D. pose proof (ai_task n A) as K. pose proof (ai_sent n A) as S.
  assert (Q0 : quietk KP (p_db n) (p_db n)) by (apply quietk_refl; exact Bs).
  destruct e; cbn [pstep].
  - unfold ev_parents. destruct (p_round n <? q); [aq; assumption|exact A].
  - unfold ev_propose. destruct (p_task n); try exact A. destruct read_ok; cbn [negb].
    2:{ aq; [exact Q0|constructor]. }
    cbn [set_rounds p_db]. destruct (last_proposed (p_db n)) as [h|] eqn:L.
    + destruct (_ && _); (aq; [exact Q0|]); repeat constructor. eapply hmine_get; eassumption.
    + aq; [exact Q0|]. repeat constructor.
  - unfold ev_repropose. destruct (p_task n); try exact A. destruct (last_proposed (p_db n)) as [h|] eqn:L; [|exact A].
    aq; [exact Q0|]. repeat constructor. eapply hmine_get; eassumption.
  - unfold ev_store. destruct (p_task n) eqn:Et; try exact A. destruct read_ok; cbn [negb]; [|aq; [exact Q0|constructor]].
    assert (Hh : h_author h = p_me n) by (inversion K; assumption).
    destruct (match last_proposed (p_db n) with Some _ => _ | None => _ end).
    + destruct write_ok; [|aq; [exact Q0|constructor]].
      constructor; cbn [set_task set_pdb p_me p_db p_task p_sent]; [apply hmine_store; assumption|repeat constructor; assumption|exact S].
    + aq; [exact Q0|repeat constructor; assumption].
  - unfold ev_ppersist. destruct (p_task n) eqn:Et; try exact A.
    aq; [apply quietk_send; [exact Bs|reflexivity]|exact K].
  - unfold ev_pack. destruct (p_task n) eqn:Et; try exact A. destruct (packed n b true); [aq; [exact Q0|exact K]|].
    destruct (packed n b false); [aq; [exact Q0|constructor]|exact A].
  - unfold ev_send. destruct (p_task n) eqn:Et; try exact A. constructor; cbn [add_sent p_me p_db p_task p_sent]; [exact D|constructor|].
    rewrite Forall_app. split; [exact S|exact K].
  - unfold ev_recv. destruct (p_chan n); [exact A|]. aq; assumption.
  - unfold ev_clock. destruct (nth_error (p_certs n) i) as [[]|]; try exact A. destruct (existsb _ _); [exact A|].
    destruct (stored_cert _ _); [aq; assumption|]. destruct (_ =? _); aq; assumption.
  - unfold ev_cert. destruct (nth_error (p_certs n) i) as [[]|]; try exact A. destruct write_ok; [|aq; assumption].
    aq; [apply quietk_do; [exact Bs|reflexivity]|exact K].
  - unfold ev_cpersist. destruct (nth_error (p_certs n) i) as [[]|]; try exact A.
    aq; [apply quietk_send; [exact Bs|reflexivity]|exact K].
  - unfold ev_cack. destruct (nth_error (p_certs n) i) as [[]|]; try exact A.
    destruct (packed n b true); [aq; assumption|]. destruct (packed n b false); [aq; assumption|exact A].
  - aq; assumption.
  - aq; [apply quietk_run; exact Bs|exact K].
  - destruct (other_pop o) eqn:Eo; [|exact A]. aq; [apply quietk_do; [exact Bs|apply other_kp; exact Eo]|exact K].
  - destruct (other_pmsg m) eqn:Em; [|exact A]. destruct (other_quiet m Em) as [Q1 Q2].
    aq; [apply quietk_send; [exact Bs|exact Q1]|exact K].
  - aq; [apply quietk_send; [exact Bs|reflexivity]|exact K].
  - constructor; cbn [rebuild p_me p_db p_task p_sent]; [apply hmine_crash; [apply Bs|exact D]|constructor|exact S].
  - aq; [exact Q0|constructor].
  - destruct (p_epoch n <? e); [|exact A]. constructor; cbn [rebuild p_me p_db p_task p_sent]; [|constructor|exact S].
    assert (D1 : Forall (hmine (p_me n)) (l_mem (if clear1 then l_do (Clr LASTP) (p_db n) else p_db n) KP ::
                                          chain KP (if clear1 then l_do (Clr LASTP) (p_db n) else p_db n))).
    { destruct clear1; [apply hmine_clear; exact D|exact D]. }
    assert (B1 : base (if clear1 then l_do (Clr LASTP) (p_db n) else p_db n)).
    { destruct clear1; [apply (base_step (p_db n) (EWrite (Clr LASTP)) Bs)|exact Bs]. }
    destruct clear2; [|exact D1]. eapply hmine_quiet; [|exact D1]. apply quietk_do; [exact B1|reflexivity].
Qed.
Lemma sent_mine me e prim disk evs : disk KP = None ->
  Forall (fun h => h_author h = me) (p_sent (prun (pinit me e prim disk) evs)).
Proof.
  intros Hd.
  assert (G : forall evs n, Inv0 (p_db n) (p_next n) -> AI n -> AI (prun n evs) /\ p_me (prun n evs) = p_me n).
  { clear evs. induction evs as [|x evs IH]; intros n Z A; [auto|]. cbn. destruct (IH (pstep n x)) as [I1 I2].
    - apply inv0_step. exact Z.
    - apply ai_step; assumption.
    - split; [exact I1|]. unfold prun in I2. rewrite I2. apply me_step. }
  destruct (G evs (pinit me e prim disk)) as [A M].
  - apply inv0_init.
  - constructor; cbn; [|constructor|constructor]. unfold chain, l_open, staged. cbn. rewrite Hd. repeat constructor.
  - pose proof (ai_sent _ A) as S. rewrite M in S. exact S.
Qed.
