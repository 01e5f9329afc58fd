From Verif Require Import Util Types CommitteeModel CommitteeProofs CertModel LdbModel LdbProofs LdbHist LdbChain VoteModel.
Local Open Scope N_scope.

Definition lexlt (v w : vinfo) : Prop :=
  vi_epoch v < vi_epoch w \/ (vi_epoch v = vi_epoch w /\ vi_round v < vi_round w).
(* "y may legitimately replace x" in epoch ep; None is a cleared entry *)
Definition vord (ep : N) (x y : option vinfo) : Prop :=
  match x, y with
  | Some v, Some w => lexlt v w \/ v = w
  | Some v, None => vi_epoch v < ep
  | None, _ => True
  end.
Definition covers (ep : N) (h : header) : option vinfo -> Prop := vord ep (Some (vi_of h)).
Definition same_slot (h1 h2 : header) : Prop :=
  h_author h1 = h_author h2 /\ h_epoch h1 = h_epoch h2 /\ h_round h1 = h_round h2.

Lemma lexlt_trans a b c : lexlt a b -> lexlt b c -> lexlt a c.
Proof. unfold lexlt. lia. Qed.
Lemma vord_ep ep ep' x y : ep <= ep' -> vord ep x y -> vord ep' x y.
Proof. unfold vord. destruct x, y; auto. lia. Qed.
Lemma vord_grow ep x m w : vord ep x m -> (match m with Some v => lexlt v w | None => vi_epoch w = ep end) ->
  vord ep x (Some w).
Proof.
  unfold vord. destruct x as [v|]; [|auto]. destruct m as [m|].
  - intros [H| ->] L; left; [eapply lexlt_trans; eassumption|assumption].
  - intros H E. left. unfold lexlt. lia.
Qed.
Lemma covers_same ep h h' : same_slot h' h -> covers ep h' (Some (vi_of h)) -> h_digest h' = h_digest h.
Proof.
  intros (H1 & H2 & H3) [H|H].
  - unfold lexlt, vi_of in H. cbn in H. lia.
  - unfold vi_of in H. congruence.
Qed.

Definition tcand (t : vtask) : list header :=
  match t with TMatch h | TFast h _ | TPersist h | TWait h _ => [h] | _ => [] end.
Definition lockl (t : vtask) : list N := match locked t with Some a => [a] | None => [] end.
Definition uniq (l : list header) : Prop :=
  forall h1 h2, In h1 l -> In h2 l -> same_slot h1 h2 -> h_digest h1 = h_digest h2.
Definition cands (n : vnode) : list header := n_out n ++ flat_map tcand (n_tasks n).
Definition ep (n : vnode) : N := cm_epoch (n_com n).
Definition hk (h : header) : key := vkey (h_author h).

Lemma checks_epoch c e h ps : vote_checks c e h ps = Some VPass -> h_epoch h = cm_epoch c.
Proof.
  unfold vote_checks, header_validate. destruct (N.eqb_spec (h_epoch h) (cm_epoch c)) as [E|E]; [auto|].
  cbn. destruct (h_epoch h =? cm_epoch c + 1); discriminate.
Qed.

Section Inv.
Variable real : header -> Prop.
Hypothesis real_inj : forall h1 h2, real h1 -> real h2 -> h_digest h1 = h_digest h2 -> h1 = h2.

(* a header about to be, or already, externalised *)
Definition pre (e : N) (d : ldb vinfo) (h : header) : Prop :=
  covers e h (l_mem d (hk h)) /\ (l_mem d (hk h) = None -> settled (hk h) (covers e h) d).
Definition stale (e : N) (o : option vinfo) : Prop := match o with Some v => vi_epoch v < e | None => True end.
Definition passed (chk : list (committee * venv * header)) (e : N) (h : header) : Prop :=
  h_epoch h = e /\ exists c en, In (c, en, h) chk.

Definition task_ok (e : N) (d : ldb vinfo) (fr : list header) (chk : list (committee * venv * header)) (t : vtask) : Prop :=
  match t with
  | TMatch h => In h fr /\ pre e d h
  | TFast h b => In h fr /\ waiting (hk h) (covers e h) b d /\ (l_mem d (hk h) = None -> settled (hk h) (covers e h) d)
  | TWant h _ | TInner h _ => real h
  | TChecked h => real h /\ passed chk e h
  | TRead h prev => real h /\ passed chk e h /\
      (prev = l_mem d (hk h) \/ (l_mem d (hk h) = None /\ stale e prev))
  | TPersist h => In h fr /\ pre e d h
  | TWait h b => In h fr /\ waiting (hk h) (covers e h) b d /\ (l_mem d (hk h) = None -> settled (hk h) (covers e h) d)
  end.

Definition good (fr : list header) (a : N) (o : option vinfo) : Prop :=
  match o with Some v => exists h, In h fr /\ v = vi_of h /\ h_author h = a | None => True end.
Definition fresh_ok (e : N) (chk : list (committee * venv * header)) (h : header) : Prop :=
  real h /\ h_epoch h <= e /\ exists c en, In (c, en, h) chk.

Record Inv (n : vnode) : Prop := mkInv {
  i_com : committee_wf (n_com n);
  i_base : base (n_db n);
  i_ids : NoDup (all_ids (n_db n));
  i_idlt : Forall (fun i => i < n_next n) (all_ids (n_db n));
  i_lock : NoDup (flat_map lockl (n_tasks n));
  i_fresh : Forall (fresh_ok (ep n) (n_checked n)) (n_fresh n);
  i_good : forall a, Forall (good (n_fresh n) a) (l_mem (n_db n) (vkey a) :: chain (vkey a) (n_db n));
  i_mem : forall a, Forall (fun x => vord (ep n) x (l_mem (n_db n) (vkey a))) (chain (vkey a) (n_db n));
  i_ord : forall a, ForallOrdPairs (vord (ep n)) (chain (vkey a) (n_db n));
  i_tasks : Forall (task_ok (ep n) (n_db n) (n_fresh n) (n_checked n)) (n_tasks n);
  i_out : Forall (fun h => In h (n_fresh n) /\ settled (hk h) (covers (ep n) h) (n_db n)) (n_out n);
  i_uniq : uniq (cands n);
  i_cache : forall a ce h, n_cache n a = Some ce -> ce_resp ce = Some (RVote h) -> In h (n_out n)
}.

Lemma in_map_tcand h t : In h (tcand t) -> exists b, t = TMatch h \/ t = TFast h b \/ t = TPersist h \/ t = TWait h b.
Proof.
  destruct t; cbn; try tauto; intros [<-|[]].
  - exists 0; auto.
  - exists b; auto.
  - exists 0; auto.
  - exists b; auto.
Qed.

(* every candidate is covered by what a reader of the store sees, and is a recorded header *)
Lemma cand_pre n h : Inv n -> In h (cands n) -> In h (n_fresh n) /\ pre (ep n) (n_db n) h.
Proof.
  intros I H. apply in_app_iff in H as [H|H].
  - pose proof (i_out n I) as O. rewrite Forall_forall in O. destruct (O h H) as [O1 O2].
    split; [exact O1|]. split; [apply O2|]. intros _. exact O2.
  - apply in_flat_map in H as (t & Ht & H). pose proof (i_tasks n I) as T. rewrite Forall_forall in T.
    specialize (T t Ht). destruct (in_map_tcand h t H) as [b [-> |[-> |[-> | ->]]]]; cbn in T.
    + exact T.
    + destruct T as (T1 & T2 & T3). split; [exact T1|]. split; [apply T2|exact T3].
    + exact T.
    + destruct T as (T1 & T2 & T3). split; [exact T1|]. split; [apply T2|exact T3].
Qed.
Lemma cand_get n h : Inv n -> In h (cands n) -> covers (ep n) h (l_get (n_db n) (hk h)).
Proof.
  intros I H. destruct (cand_pre n h I H) as [_ [P1 P2]]. unfold l_get.
  destruct (l_mem (n_db n) (hk h)) eqn:E; [exact P1|]. destruct (P2 eq_refl) as (_ & D & _). exact D.
Qed.

Lemma uniq_incl l l' : incl l' l -> uniq l -> uniq l'.
Proof. intros H U h1 h2 H1 H2. apply U; apply H; assumption. Qed.
Lemma uniq_add l l' h : (forall x, In x l' -> x = h \/ In x l) -> (forall x, In x l -> same_slot x h -> h_digest x = h_digest h) ->
  uniq l -> uniq l'.
Proof.
  intros H Hc U h1 h2 H1 H2 S.
  destruct (H h1 H1) as [-> |K1], (H h2 H2) as [-> |K2]; auto.
  symmetry. apply Hc; [assumption|]. destruct S as (A & B & C). repeat split; congruence.
Qed.

Lemma in_replace {A} i (x : A) l y : In y (replace i x l) -> y = x \/ In y l.
Proof.
  revert i. induction l as [|z l IH]; intros [|i]; cbn; try tauto.
  - intros [->|H]; auto.
  - intros [->|H]; [auto|]. destruct (IH i H); auto.
Qed.
Lemma in_drop {A} i (l : list A) y : In y (drop_at i l) -> In y l.
Proof.
  revert i. induction l as [|z l IH]; intros [|i]; cbn; auto. intros [->|H]; eauto.
Qed.
Lemma lock_replace i t t' ts : nth_error ts i = Some t -> incl (lockl t') (lockl t) ->
  NoDup (flat_map lockl ts) -> NoDup (flat_map lockl (replace i t' ts)).
Proof.
  intros Hn Hi. revert i Hn. induction ts as [|u ts IH]; intros [|i] Hn; cbn in *; try discriminate.
  - injection Hn as ->. intros ND. apply NoDup_app_elim in ND as (N1 & N2 & N3).
    apply NoDup_app_intro; [unfold lockl; destruct (locked t'); repeat constructor; auto| exact N2|].
    intros x Hx. apply N3. apply Hi. exact Hx.
  - intros ND. apply NoDup_app_elim in ND as (N1 & N2 & N3).
    apply NoDup_app_intro; [exact N1|apply IH; assumption|].
    intros x Hx Hx2. apply (N3 x Hx). apply in_flat_map in Hx2 as (v & Hv & Hx2).
    apply in_replace in Hv as [-> |Hv].
    + apply in_flat_map. exists t. split; [eapply nth_error_In; eassumption|apply Hi; exact Hx2].
    + apply in_flat_map. exists v. auto.
Qed.
Lemma lock_drop i ts : NoDup (flat_map lockl ts) -> NoDup (flat_map lockl (drop_at i ts)).
Proof.
  revert i. induction ts as [|u ts IH]; intros [|i] ND; cbn in *; auto.
  - apply NoDup_app_elim in ND as (_ & N2 & _). exact N2.
  - apply NoDup_app_elim in ND as (N1 & N2 & N3). apply NoDup_app_intro; auto.
    intros x Hx Hx2. apply (N3 x Hx). apply in_flat_map in Hx2 as (v & Hv & Hx2). apply in_drop in Hv.
    apply in_flat_map. exists v. auto.
Qed.
Lemma lock_acquire i t t' ts a : nth_error ts i = Some t -> lockl t = [] -> lockl t' = [a] ->
  ~ In a (flat_map lockl ts) -> NoDup (flat_map lockl ts) -> NoDup (flat_map lockl (replace i t' ts)).
Proof.
  intros Hn Ht Ht' Ha. revert i Hn Ha. induction ts as [|u ts IH]; intros [|i] Hn Ha ND; cbn in *; try discriminate.
  - injection Hn as ->. rewrite Ht in *. rewrite Ht'. cbn in *. constructor; assumption.
  - apply NoDup_app_elim in ND as (N1 & N2 & N3).
    apply NoDup_app_intro; [exact N1|apply IH; auto; intro; apply Ha; apply in_app_iff; auto|].
    intros x Hx Hx2. apply in_flat_map in Hx2 as (v & Hv & Hx2).
    apply in_replace in Hv as [-> |Hv].
    + rewrite Ht' in Hx2. destruct Hx2 as [->|[]]. apply Ha. apply in_app_iff. auto.
    + apply (N3 x Hx). apply in_flat_map. exists v. auto.
Qed.
(* two tasks holding the same author's lock are the same position *)
Lemma lock_other i t ts a : nth_error ts i = Some t -> lockl t = [a] -> NoDup (flat_map lockl ts) ->
  forall u, In u (drop_at i ts) -> lockl u <> [a].
Proof.
  revert i. induction ts as [|v ts IH]; intros [|i] Hn Ht ND u Hu Hl; cbn in *; try discriminate.
  - injection Hn as ->. apply NoDup_app_elim in ND as (N1 & N2 & N3). apply (N3 a).
    + rewrite Ht. cbn. auto.
    + apply in_flat_map. exists u. rewrite Hl. cbn. auto.
  - apply NoDup_app_elim in ND as (N1 & N2 & N3). destruct Hu as [-> |Hu].
    + apply (N3 a); [rewrite Hl; cbn; auto|]. apply in_flat_map. exists t. rewrite Ht. split; [eapply nth_error_In; eassumption|cbn; auto].
    + eapply IH; eauto.
Qed.
Lemma in_replace' {A} i (x : A) l y : In y (replace i x l) -> y = x \/ In y (drop_at i l).
Proof.
  revert i. induction l as [|z l IH]; intros [|i]; cbn; try tauto.
  - intros [->|H]; auto.
  - intros [->|H]; [auto|]. destruct (IH i H); auto.
Qed.

(* ---- changes that do not touch the database ---- *)
Lemma inv_tasks n ts : Inv n ->
  NoDup (flat_map lockl ts) ->
  Forall (task_ok (ep n) (n_db n) (n_fresh n) (n_checked n)) ts ->
  uniq (n_out n ++ flat_map tcand ts) -> Inv (set_tasks n ts).
Proof. intros I H1 H2 H3. destruct I. constructor; cbn; auto. Qed.
Lemma inv_cache n a c : Inv n ->
  (forall ce h, c = Some ce -> ce_resp ce = Some (RVote h) -> In h (n_out n)) -> Inv (set_cache n a c).
Proof.
  intros I H. destruct I. constructor; cbn; auto. intros a' ce h. destruct (a' =? a); eauto.
Qed.
Lemma inv_out n h : Inv n -> In h (n_fresh n) -> settled (hk h) (covers (ep n) h) (n_db n) ->
  uniq (h :: cands n) -> Inv (add_out n h).
Proof.
  intros I H1 H2 H3. destruct I. constructor; cbn; auto.
  - apply Forall_app. split; [assumption|]. constructor; [split; assumption|constructor].
  - eapply uniq_incl; [|exact H3]. unfold cands. cbn. intros x. rewrite !in_app_iff. cbn. rewrite in_app_iff. tauto.
  - intros a ce h' H4 H5. apply in_app_iff. eauto.
Qed.
Lemma inv_drop n i : Inv n -> Inv (set_tasks n (drop_at i (n_tasks n))).
Proof.
  intros I. apply inv_tasks; [assumption|apply lock_drop, i_lock, I| |].
  - pose proof (i_tasks n I) as T. rewrite Forall_forall in *. intros t Ht. apply T. eapply in_drop. exact Ht.
  - eapply uniq_incl; [|exact (i_uniq n I)]. unfold cands. apply incl_app; [apply incl_appl, incl_refl|].
    apply incl_appr. intros x Hx. apply in_flat_map in Hx as (t & Ht & Hx). apply in_flat_map. exists t.
    split; [eapply in_drop; exact Ht|exact Hx].
Qed.
Lemma inv_finish n i h r : Inv n -> (forall h', r = RVote h' -> In h' (n_out n)) -> Inv (finish i h r n).
Proof.
  intros I H. unfold finish. apply inv_cache; [apply inv_drop; assumption|].
  intros ce h' E1 E2. injection E1 as <-. cbn in *. injection E2 as E2. apply H. exact E2.
Qed.
Lemma inv_replace n i t t' : Inv n -> nth_error (n_tasks n) i = Some t -> incl (lockl t') (lockl t) ->
  task_ok (ep n) (n_db n) (n_fresh n) (n_checked n) t' ->
  uniq (tcand t' ++ cands n) -> Inv (set_tasks n (replace i t' (n_tasks n))).
Proof.
  intros I Hn Hl Ht Hu. apply inv_tasks; [assumption|eapply lock_replace; [exact Hn|exact Hl|apply (i_lock n I)]| |].
  - pose proof (i_tasks n I) as T. rewrite Forall_forall in *. intros u Hx. apply in_replace in Hx as [-> |Hx]; auto.
  - eapply uniq_incl; [|exact Hu]. intros x Hx. apply in_app_iff in Hx as [Hx|Hx].
    + apply in_app_iff. right. apply in_app_iff. auto.
    + apply in_flat_map in Hx as (u & Hx & Hu2). apply in_replace in Hx as [-> |Hx]; apply in_app_iff; [auto|].
      right. apply in_app_iff. right. apply in_flat_map. eauto.
Qed.

(* ---- changes of the database that do not write the votes table ---- *)
Record quiet (d d' : ldb vinfo) : Prop := mkQuiet {
  q_base : base d';
  q_mem : forall a, l_mem d' (vkey a) = l_mem d (vkey a);
  q_chain : forall a, subl (chain (vkey a) d') (chain (vkey a) d);
  q_wait : forall a P b, waiting (vkey a) P b d -> waiting (vkey a) P b d'
}.
Lemma quiet_settled d d' a P : quiet d d' -> settled (vkey a) P d -> settled (vkey a) P d'.
Proof.
  intros Q. rewrite !settled_chain. intros [H1 H2]. rewrite (q_mem _ _ Q). split; [exact H1|].
  eapply subl_Forall; [apply (q_chain _ _ Q)|exact H2].
Qed.
Lemma quiet_task e d d' fr chk t : quiet d d' -> task_ok e d fr chk t -> task_ok e d' fr chk t.
Proof.
  intros Q. destruct t; cbn; unfold pre, hk; rewrite ?(q_mem _ _ Q).
  - intros (H1 & H2 & H3). split; [exact H1|]. split; [exact H2|]. intros E. eapply quiet_settled; [exact Q|auto].
  - intros (H1 & H2 & H3). split; [exact H1|]. split; [apply (q_wait _ _ Q); exact H2|].
    intros E. eapply quiet_settled; [exact Q|auto].
  - auto.
  - auto.
  - auto.
  - auto.
  - intros (H1 & H2 & H3). split; [exact H1|]. split; [exact H2|]. intros E. eapply quiet_settled; [exact Q|auto].
  - intros (H1 & H2 & H3). split; [exact H1|]. split; [apply (q_wait _ _ Q); exact H2|].
    intros E. eapply quiet_settled; [exact Q|auto].
Qed.
Lemma inv_quiet n d' nx : Inv n -> quiet (n_db n) d' ->
  NoDup (all_ids d') -> Forall (fun i => i < nx) (all_ids d') ->
  Inv (mkVnode (n_com n) d' nx (n_tasks n) (n_cache n) (n_out n) (n_fresh n) (n_checked n)).
Proof.
  intros I Q H1 H2. destruct I. constructor; cbn; auto.
  - apply Q.
  - intros a. specialize (i_good0 a). inversion i_good0; subst. constructor.
    + rewrite (q_mem _ _ Q). assumption.
    + eapply subl_Forall; [apply (q_chain _ _ Q)|assumption].
  - intros a. rewrite (q_mem _ _ Q). eapply subl_Forall; [apply (q_chain _ _ Q)|apply i_mem0].
  - intros a. eapply subl_FOP; [apply (q_chain _ _ Q)|apply i_ord0].
  - eapply Forall_impl; [|exact i_tasks0]. intros t. apply quiet_task. exact Q.
  - eapply Forall_impl; [|exact i_out0]. intros h [A B]. split; [exact A|]. eapply quiet_settled; [exact Q|exact B].
Qed.

Lemma inv_init c disk : committee_wf c -> (forall a, disk (vkey a) = None) -> Inv (vinit c disk).
Proof.
  intros Hc H. constructor; cbn; try (constructor; fail); auto; try (constructor; fail).
  - apply base_open.
  - intros a. rewrite H. unfold chain. cbn. rewrite H. repeat constructor.
  - intros a. unfold chain. cbn. rewrite H. repeat constructor.
  - intros a. unfold chain. cbn. repeat constructor.
  - intros h1 h2 [].
  - intros a ce h E. discriminate.
Qed.

Lemma quiet_run ok d : base d -> quiet d (l_run ok d).
Proof.
  intros B. constructor.
  - apply (base_step d (ERun ok) B).
  - intros a. rewrite mem_run by apply B. reflexivity.
  - intros a. apply chain_run.
  - intros a P b. apply run_waiting. apply B.
Qed.
Lemma quiet_send m d : base d -> ops_of [m] = [] -> quiet d (l_send m d).
Proof.
  intros B Hm. constructor.
  - split; [apply B|apply coherent_send; [exact Hm|apply B]].
  - reflexivity.
  - intros a. rewrite chain_send by exact Hm. apply subl_refl.
  - intros a P b. apply send_waiting. exact Hm.
Qed.
Lemma other_effect o a : other_op o = true -> effect (vkey a) o = None.
Proof.
  destruct o; cbn [other_op effect]; unfold key_eqb, vkey; cbn [fst snd]; rewrite negb_true_iff; intros H;
  rewrite N.eqb_sym in H; rewrite H; reflexivity.
Qed.
Lemma quiet_other o d : base d -> other_op o = true -> quiet d (l_do o d).
Proof.
  intros B Ho. constructor.
  - apply (base_step d (EWrite o) B).
  - intros a. unfold l_do. cbn. rewrite apply_effect, other_effect by exact Ho. reflexivity.
  - intros a. rewrite chain_do. unfold eff. cbn. rewrite other_effect by exact Ho. rewrite app_nil_r. apply subl_refl.
  - intros a P b. apply do_waiting. unfold op_ok. rewrite other_effect by exact Ho. exact I.
Qed.
Lemma inv_barrier n : Inv n -> Inv (with_barrier n).
Proof.
  intros I. apply inv_quiet; [exact I|apply quiet_send; [apply I|reflexivity]| |].
  - eapply Permutation_NoDup; [symmetry; apply all_ids_send|]. cbn. constructor; [|apply I].
    intros H. pose proof (i_idlt n I) as L. rewrite Forall_forall in L. specialize (L _ H). lia.
  - rewrite Forall_forall. intros i Hi.
    assert (Hi' : In i (bids [MBarrier (V:=vinfo) (n_next n)] ++ all_ids (n_db n)))
      by (eapply Permutation_in; [apply all_ids_send|exact Hi]).
    cbn in Hi'. destruct Hi' as [<-|Hi']; [lia|].
    pose proof (i_idlt n I) as L. rewrite Forall_forall in L. specialize (L _ Hi'). cbn in L. lia.
Qed.

(* ---- the two ways a header becomes a candidate ---- *)
Lemma match_cand n h vi : Inv n -> real h -> l_get (n_db n) (hk h) = Some vi -> vi_digest vi = h_digest h ->
  In h (n_fresh n) /\ vi = vi_of h.
Proof.
  intros I R G D. pose proof (i_good n I (h_author h)) as Gd. rewrite Forall_forall in Gd.
  assert (exists h0, In h0 (n_fresh n) /\ vi = vi_of h0 /\ h_author h0 = h_author h) as (h0 & F & E & A).
  { unfold l_get in G. destruct (l_mem (n_db n) (hk h)) eqn:M.
    - injection G as ->. apply (Gd (Some vi)). left. symmetry. exact M || (unfold hk in M; symmetry; exact M).
    - apply (Gd (Some vi)). right. left. exact G. }
  pose proof (i_fresh n I) as Fr. rewrite Forall_forall in Fr. destruct (Fr h0 F) as [R0 _].
  assert (h0 = h) by (apply real_inj; [assumption|assumption|subst vi; exact D]). subst h0. auto.
Qed.
Lemma cand_compat n h : Inv n -> l_get (n_db n) (hk h) = Some (vi_of h) ->
  forall x, In x (cands n) -> same_slot x h -> h_digest x = h_digest h.
Proof.
  intros I G x Hx S. pose proof (cand_get n x I Hx) as C.
  assert (K : hk x = hk h) by (unfold hk; destruct S as (-> & _); reflexivity). rewrite K, G in C.
  eapply covers_same; eassumption.
Qed.
Lemma match_pre n h : Inv n -> real h -> l_get (n_db n) (hk h) = Some (vi_of h) -> pre (ep n) (n_db n) h.
Proof.
  intros I R G. unfold l_get in G. unfold pre. destruct (l_mem (n_db n) (hk h)) as [m|] eqn:M.
  - injection G as ->. split; [right; reflexivity|discriminate].
  - pose proof (i_mem n I (h_author h)) as Hm. unfold hk in M. rewrite M in Hm.
    inversion Hm as [|? ? H1 H2]; subst. unfold hk in G. rewrite G in H1. cbn in H1.
    split; [exact H1|]. intros _. apply settled_chain. unfold hk. rewrite M. split; [exact H1|].
    pose proof (i_ord n I (h_author h)) as Ho. unfold chain in *. rewrite G in *. inversion Ho; subst.
    constructor; [right; reflexivity|assumption].
Qed.

(* ---- recording a new vote ---- *)
Lemma inv_fresh n i h prev : Inv n -> nth_error (n_tasks n) i = Some (TRead h prev) ->
  (match prev with Some v => lexlt v (vi_of h) | None => True end) ->
  (* strictly newer than everything externalised for that author *)
  (forall x, In x (cands n) -> h_author x = h_author h -> lexlt (vi_of x) (vi_of h)) /\
  Inv (add_fresh (set_db (set_tasks n (replace i (TPersist h) (n_tasks n)))
                              (l_do (Ins (vkey (h_author h)) (vi_of h)) (n_db n))) h).
Proof.
  intros I Hn Hp. pose proof (i_tasks n I) as T. rewrite Forall_forall in T.
  pose proof (T _ (nth_error_In _ _ Hn)) as (R & (He & Hchk) & Hpr).
  assert (Hm : match l_mem (n_db n) (hk h) with Some v => lexlt v (vi_of h) | None => vi_epoch (vi_of h) = ep n end).
  { destruct Hpr as [->|[E _]]; [|rewrite E; exact He].
    destruct (l_mem (n_db n) (hk h)); [exact Hp|exact He]. }
  assert (Gr : forall x, vord (ep n) x (l_mem (n_db n) (hk h)) -> vord (ep n) x (Some (vi_of h))).
  { intros x Hx. eapply vord_grow; eassumption. }
  assert (Newer : forall x, In x (cands n) -> h_author x = h_author h -> lexlt (vi_of x) (vi_of h)).
  { intros x Hx A. destruct (cand_pre n x I Hx) as [_ [C _]]. unfold hk in *. rewrite A in C. unfold covers in C.
    destruct (l_mem (n_db n) (vkey (h_author h))) as [v|].
    - destruct C as [C|C]; [eapply lexlt_trans; eassumption|rewrite C; exact Hm].
    - cbn in C. left. unfold vi_of in *. cbn in *. lia. }
  split; [exact Newer|].
  set (o := Ins (vkey (h_author h)) (vi_of h)).
  assert (Eff : forall a, effect (vkey a) o = if a =? h_author h then Some (Some (vi_of h)) else None).
  { intros a. cbn. unfold key_eqb, vkey. cbn. destruct (a =? h_author h); reflexivity. }
  assert (Mem : forall a, l_mem (l_do o (n_db n)) (vkey a) = if a =? h_author h then Some (vi_of h) else l_mem (n_db n) (vkey a)).
  { intros a. unfold l_do. cbn [l_mem]. rewrite apply_effect, Eff. destruct (a =? h_author h); reflexivity. }
  assert (Ch : forall a, chain (vkey a) (l_do o (n_db n)) = chain (vkey a) (n_db n) ++ if a =? h_author h then [Some (vi_of h)] else []).
  { intros a. rewrite chain_do. unfold eff. cbn [flat_map]. rewrite Eff. destruct (a =? h_author h); reflexivity. }
  (* preservation for a candidate x of any author *)
  assert (Cov : forall x b, covers (ep n) x (l_mem (n_db n) (hk x)) ->
     op_ok (hk x) (covers (ep n) x) o /\
     (waiting (hk x) (covers (ep n) x) b (n_db n) -> waiting (hk x) (covers (ep n) x) b (l_do o (n_db n))) /\
     (settled (hk x) (covers (ep n) x) (n_db n) -> settled (hk x) (covers (ep n) x) (l_do o (n_db n)))).
  { intros x b C. assert (OK : op_ok (hk x) (covers (ep n) x) o).
    { unfold op_ok, hk. rewrite Eff. destruct (N.eqb_spec (h_author x) (h_author h)) as [E|]; [|exact I0 || exact Logic.I].
      apply Gr. unfold hk in *. rewrite <- E. exact C. }
    split; [exact OK|]. split; [apply do_waiting; exact OK|apply do_settled; exact OK]. }
  assert (Tk : forall t, In t (drop_at i (n_tasks n)) ->
     task_ok (ep n) (l_do o (n_db n)) (n_fresh n ++ [h]) (n_checked n) t).
  { intros t Ht. pose proof (T t (in_drop _ _ _ Ht)) as K.
    assert (Lk : lockl t <> [h_author h]) by (eapply lock_other; [exact Hn|reflexivity|apply I|exact Ht]).
    assert (MemN : forall x, l_mem (l_do o (n_db n)) (hk x) = None -> l_mem (n_db n) (hk x) = None).
    { intros x. unfold hk. rewrite Mem. destruct (h_author x =? h_author h); [discriminate|auto]. }
    assert (Pre : forall x, pre (ep n) (n_db n) x -> pre (ep n) (l_do o (n_db n)) x).
    { intros x [P1 P2]. destruct (Cov x 0 P1) as (C1 & _ & C3). split.
      - unfold hk. rewrite Mem. destruct (N.eqb_spec (h_author x) (h_author h)) as [E|]; [|exact P1].
        apply Gr. unfold hk in *. rewrite <- E. exact P1.
      - intros E. apply C3, P2, MemN, E. }
    destruct t; cbn [task_ok] in K |- *.
    - split; [apply in_app_iff; left; apply K|apply Pre, K].
    - destruct K as (K1 & K2 & K3). destruct (Cov h0 b (proj1 K2)) as (C1 & C2 & C3).
      split; [apply in_app_iff; auto|]. split; [auto|]. intros E. apply C3, K3, MemN, E.
    - exact K.
    - exact K.
    - exact K.
    - destruct K as (K1 & K2 & K3). split; [exact K1|]. split; [exact K2|]. unfold hk. rewrite Mem.
      destruct (N.eqb_spec (h_author h0) (h_author h)) as [E|]; [|exact K3].
      exfalso. apply Lk. cbn. rewrite E. reflexivity.
    - split; [apply in_app_iff; left; apply K|apply Pre, K].
    - destruct K as (K1 & K2 & K3). destruct (Cov h0 b (proj1 K2)) as (C1 & C2 & C3).
      split; [apply in_app_iff; auto|]. split; [auto|]. intros E. apply C3, K3, MemN, E. }
  constructor; cbn [n_com n_db n_next n_tasks n_cache n_out n_fresh n_checked add_fresh set_db set_tasks];
    try (change (ep (add_fresh (set_db (set_tasks n (replace i (TPersist h) (n_tasks n))) (l_do o (n_db n))) h)) with (ep n)).
  - apply I.
  - apply (base_step (n_db n) (EWrite o)). apply I.
  - rewrite all_ids_do. apply I.
  - rewrite all_ids_do. apply I.
  - eapply lock_replace; [exact Hn|apply incl_refl|apply I].
  - apply Forall_app. split; [apply I|]. repeat constructor; [exact R|lia|exact Hchk].
  - intros a. rewrite Mem, Ch. pose proof (i_good n I a) as G.
    assert (G' : Forall (good (n_fresh n ++ [h]) a) (l_mem (n_db n) (vkey a) :: chain (vkey a) (n_db n))).
    { eapply Forall_impl; [|exact G]. intros x. unfold good. destruct x; [|auto].
      intros (y & Y1 & Y2). exists y. split; [apply in_app_iff; auto|exact Y2]. }
    inversion G'; subst.
    assert (Gh : a = h_author h -> good (n_fresh n ++ [h]) a (Some (vi_of h))).
    { intros ->. exists h. split; [apply in_app_iff; right; cbn; auto|auto]. }
    destruct (N.eqb_spec a (h_author h)) as [E|].
    + constructor; [auto|]. apply Forall_app. split; [assumption|]. repeat constructor. auto.
    + rewrite app_nil_r. constructor; assumption.
  - intros a. rewrite Mem, Ch. destruct (N.eqb_spec a (h_author h)) as [->|].
    + apply Forall_app. split.
      * eapply Forall_impl; [|apply (i_mem n I)]. intros x Hx. apply Gr. exact Hx.
      * constructor; [right; reflexivity|constructor].
    + rewrite app_nil_r. apply I.
  - intros a. rewrite Ch. destruct (N.eqb_spec a (h_author h)) as [->|]; [|rewrite app_nil_r; apply I].
    pose proof (i_ord n I (h_author h)) as O. pose proof (i_mem n I (h_author h)) as M.
    induction O as [|x l Hx O IH]; [repeat constructor|]. inversion M; subst. cbn. constructor; [|apply IH; assumption].
    apply Forall_app. split; [exact Hx|]. constructor; [apply Gr; assumption|constructor].
  - rewrite Forall_forall. intros t Ht. apply in_replace' in Ht as [-> |Ht]; [|apply Tk; exact Ht].
    cbn. split; [apply in_app_iff; right; cbn; auto|]. unfold pre, hk. rewrite Mem, N.eqb_refl.
    split; [right; reflexivity|discriminate].
  - pose proof (i_out n I) as O. rewrite Forall_forall in *. intros x Hx. destruct (O x Hx) as [O1 O2].
    split; [apply in_app_iff; auto|]. apply Cov; [exact 0|apply O2|exact O2].
  - eapply (uniq_add (cands n) _ h); [| |apply I].
    + intros x Hx. unfold cands in *. cbn [n_out n_tasks add_fresh set_db set_tasks] in Hx.
      apply in_app_iff in Hx as [Hx|Hx]; [right; apply in_app_iff; auto|].
      apply in_flat_map in Hx as (t & Ht & Hx). apply in_replace in Ht as [-> |Ht].
      * destruct Hx as [->|[]]. auto.
      * right. apply in_app_iff. right. apply in_flat_map. eauto.
    + intros x Hx S. exfalso. pose proof (Newer x Hx (proj1 S)) as L. destruct S as (_ & S2 & S3).
      unfold lexlt, vi_of in L. cbn in L. lia.
  - apply I.
Qed.

(* ---- resets: crash, restart, epoch change ---- *)
Lemma inv_reset n c d' : Inv n -> committee_wf c -> cm_epoch (n_com n) <= cm_epoch c -> base d' ->
  NoDup (all_ids d') -> Forall (fun i => i < n_next n) (all_ids d') ->
  (forall a, Forall (good (n_fresh n) a) (l_mem d' (vkey a) :: chain (vkey a) d')) ->
  (forall a, Forall (fun x => vord (cm_epoch c) x (l_mem d' (vkey a))) (chain (vkey a) d')) ->
  (forall a, ForallOrdPairs (vord (cm_epoch c)) (chain (vkey a) d')) ->
  (forall h, In h (n_out n) -> settled (hk h) (covers (cm_epoch c) h) d') ->
  Inv (reset n c d').
Proof.
  intros I Hw Hc B N1 N2 G M O S. constructor; cbn; auto.
  - constructor.
  - eapply Forall_impl; [|apply (i_fresh n I)]. intros h (F1 & F2 & F3). unfold fresh_ok.
    change (ep (reset n c d')) with (cm_epoch c). unfold ep in F2. split; [exact F1|]. split; [lia|exact F3].
  - rewrite Forall_forall. intros h Hh. pose proof (i_out n I) as Oo. rewrite Forall_forall in Oo.
    split; [apply (Oo h Hh)|]. apply S. exact Hh.
  - eapply uniq_incl; [|apply (i_uniq n I)]. unfold cands. cbn. rewrite app_nil_r. apply incl_appl, incl_refl.
  - intros a ce h E. discriminate.
Qed.

(* ---- one step ---- *)
Definition ev_real (e : vev) : Prop := match e with VRequest _ h _ _ => real h | VNextEpoch c _ => built c | _ => True end.

Lemma in_tcand_task n t h : In t (n_tasks n) -> In h (tcand t) -> In h (cands n).
Proof. intros H1 H2. apply in_app_iff. right. apply in_flat_map. eauto. Qed.

Lemma acked_in n b r : acked n b r = true -> In (b, r) (l_acks (n_db n)).
Proof.
  unfold acked. rewrite existsb_exists. intros ([i x] & H & E). cbn in E. apply andb_true_iff in E as [E1 E2].
  apply N.eqb_eq in E1. apply Bool.eqb_prop in E2. subst. exact H.
Qed.

Lemma step_inv n e : Inv n -> ev_real e -> Inv (vstep n e).
Proof.
  intros I R. destruct e; cbn [vstep].
  - (* request *)
    unfold ev_request. destruct (cm_authority (n_com n) (h_author h)) as [a|] eqn:Ea; [|exact I].
    destruct (peer =? a_id a) eqn:Ep; cbn [negb]; [|exact I].
    assert (Want : Inv (set_tasks n (n_tasks n ++ [TWant h ps]))).
    { apply inv_tasks; [exact I| | |].
      - rewrite flat_map_app. cbn. rewrite app_nil_r. apply I.
      - apply Forall_app. split; [apply I|]. repeat constructor. exact R.
      - rewrite flat_map_app. cbn. rewrite app_nil_r. apply I. }
    destruct read_ok; [|exact Want].
    destruct (l_get (n_db n) (vkey peer)) as [vi|] eqn:G; [|exact Want].
    destruct (N.eqb_spec (vi_digest vi) (h_digest h)) as [D|]; [|exact Want].
    (* the looked-up key is the author's *)
    assert (Pa : peer = h_author h).
    { apply N.eqb_eq in Ep. rewrite Ep. apply (wf_id _ (i_com n I)). apply bm_lookup_In; [apply (wf_by_id_sorted _ (i_com n I))|exact Ea]. }
    subst peer. destruct (match_cand n h vi I R G D) as [F ->].
    apply inv_tasks; [exact I| | |].
    + rewrite flat_map_app. cbn. rewrite app_nil_r. apply I.
    + apply Forall_app. split; [apply I|]. constructor; [|constructor]. split; [exact F|apply match_pre; assumption].
    + eapply (uniq_add (cands n) _ h); [|apply cand_compat; assumption|apply I].
      intros x. unfold cands. rewrite flat_map_app, !in_app_iff. cbn. intuition.
  - (* lock *)
    unfold ev_lock. destruct (nth_error (n_tasks n) i) as [t|] eqn:Hn; [|exact I].
    destruct t; try exact I.
    destruct (existsb (fun t => match locked t with Some b => b =? h_author h | None => false end) (n_tasks n)) eqn:Ex; [exact I|].
    assert (Go : Inv (set_tasks (set_cache n (h_author h) None) (replace i (TInner h ps) (n_tasks n)))).
    { apply inv_tasks; [apply inv_cache; [exact I|discriminate]| | |]; cbn [n_tasks set_cache n_db n_fresh n_checked n_out].
      - eapply lock_acquire; [exact Hn|reflexivity|reflexivity| |apply I].
        intros H. apply in_flat_map in H as (u & Hu & H).
        assert (X : existsb (fun t => match locked t with Some b => b =? h_author h | None => false end) (n_tasks n) = true).
        { apply existsb_exists. exists u. split; [exact Hu|]. unfold lockl in H. destruct (locked u); [|destruct H].
          destruct H as [->|[]]. apply N.eqb_refl. }
        rewrite X in Ex. discriminate.
      - pose proof (i_tasks n I) as T. rewrite Forall_forall in *. intros u Hu. apply in_replace in Hu as [-> |Hu]; [|apply T; exact Hu].
        exact (T _ (nth_error_In _ _ Hn)).
      - eapply uniq_incl; [|apply (i_uniq n I)]. intros x Hx. unfold cands. apply in_app_iff in Hx as [Hx|Hx]; apply in_app_iff; [auto|].
        right. apply in_flat_map in Hx as (u & Hu & Hx). apply in_replace in Hu as [-> |Hu]; [destruct Hx|].
        apply in_flat_map. eauto. }
    assert (Done : forall c, (forall ce h', c = Some ce -> ce_resp ce = Some (RVote h') -> In h' (n_out n)) ->
      Inv (set_tasks (set_cache n (h_author h) c) (drop_at i (n_tasks n)))).
    { intros c Hc. apply (inv_drop (set_cache n (h_author h) c) i). apply inv_cache; assumption. }
    destruct (n_cache n (h_author h)) as [ce|] eqn:Ec; [|exact Go].
    assert (Keep : forall ce0 h', Some ce = Some ce0 -> ce_resp ce0 = Some (RVote h') -> In h' (n_out n)).
    { intros ce0 h' E1 E2. injection E1 as <-. eapply (i_cache n I); eassumption. }
    destruct (ce_digest ce =? h_digest h).
    + destruct (ce_resp ce) as [r|] eqn:Er; [|exact Go]. destruct r.
      * assert (Ho : In h0 (n_out n)) by (eapply (i_cache n I); eassumption).
        pose proof (i_out n I) as O. rewrite Forall_forall in O. destruct (O h0 Ho) as [O1 O2].
        apply inv_out; [apply Done; discriminate|exact O1|exact O2|].
        eapply uniq_incl; [|apply (i_uniq n I)]. intros x [<-|Hx]; [apply in_app_iff; auto|].
        unfold cands in *. cbn [n_out n_tasks set_tasks set_cache] in Hx. apply in_app_iff in Hx as [Hx|Hx]; apply in_app_iff; [auto|].
        right. apply in_flat_map in Hx as (u & Hu & Hx). apply in_flat_map. exists u. split; [eapply in_drop; exact Hu|exact Hx].
      * destruct ps; [apply Done; exact Keep|].
        destruct (N.of_nat (length (c :: ps)) =? N.of_nat (length l)); [|apply Done; exact Keep].
        destruct (forallb (fun p => memN (c_digest p) l) (c :: ps)); [exact Go|apply Done; exact Keep].
      * exact Go.
      * apply Done. discriminate.
    + destruct ((h_epoch h <? ce_epoch ce) || ((ce_epoch ce =? h_epoch h) && (h_round h <=? ce_round ce))); [|exact Go].
      apply Done. intros ce0 h' E1 E2. injection E1 as <-. discriminate.
  - (* check *)
    unfold ev_check. destruct (nth_error (n_tasks n) i) as [t|] eqn:Hn; [|exact I].
    destruct t; try exact I.
    destruct (vote_checks (n_com n) e h ps) as [r|] eqn:Ev; [|exact I].
    assert (Rh : real h) by (pose proof (i_tasks n I) as T; rewrite Forall_forall in T; exact (T _ (nth_error_In _ _ Hn))).
    destruct r.
    + assert (Ep : h_epoch h = ep n) by (eapply checks_epoch; exact Ev).
      assert (I2 : Inv (add_checked n (n_com n, e, h))).
      { destruct I as [? ? ? ? ? Fr ? ? ? Tk ? ? ?]. constructor; cbn; auto.
        - eapply Forall_impl; [|exact Fr]. intros x (F1 & F2 & c0 & en & F3). split; [exact F1|]. split; [exact F2|].
          exists c0, en. apply in_app_iff. auto.
        - eapply Forall_impl; [|exact Tk]. intros t Ht. 
          assert (Ps : forall x, passed (n_checked n) (ep n) x -> passed (n_checked n ++ [(n_com n, e, h)]) (ep n) x).
          { intros x (P1 & c0 & en & P2). split; [exact P1|]. exists c0, en. apply in_app_iff. auto. }
          change (ep (add_checked n (n_com n, e, h))) with (ep n).
          destruct t; cbn in *; try exact Ht.
          + split; [apply Ht|apply Ps, Ht].
          + destruct Ht as (T1 & T2 & T3). split; [exact T1|]. split; [apply Ps, T2|exact T3]. }
      apply (inv_replace (add_checked n (n_com n, e, h)) i (TInner h ps) (TChecked h)); [exact I2|exact Hn|apply incl_refl| |apply I2].
      cbn. split; [exact Rh|]. split; [exact Ep|]. exists (n_com n), e. apply in_app_iff. right. cbn. auto.
    + apply inv_finish; [exact I|discriminate].
    + apply inv_finish; [exact I|]. destruct recoverable; discriminate.
  - (* read *)
    unfold ev_read. destruct (nth_error (n_tasks n) i) as [t|] eqn:Hn; [|exact I].
    destruct t; try exact I.
    destruct ok; [|apply inv_finish; [exact I|discriminate]].
    pose proof (i_tasks n I) as T. rewrite Forall_forall in T. pose proof (T _ (nth_error_In _ _ Hn)) as (T1 & T2).
    eapply inv_replace; [exact I|exact Hn|apply incl_refl| |apply I].
    cbn. split; [exact T1|]. split; [exact T2|]. unfold l_get, hk. destruct (l_mem (n_db n) (vkey (h_author h))) eqn:M; [auto|].
    right. split; [reflexivity|]. pose proof (i_mem n I (h_author h)) as Hm. rewrite M in Hm. inversion Hm as [|? ? H1 H2]; subst.
    unfold stale. destruct (l_disk (n_db n) (vkey (h_author h))); [exact H1|exact Logic.I].
  - (* decide *)
    unfold ev_decide. destruct (nth_error (n_tasks n) i) as [t|] eqn:Hn; [|exact I].
    destruct t; try exact I.
    pose proof (i_tasks n I) as T. rewrite Forall_forall in T. pose proof (T _ (nth_error_In _ _ Hn)) as (T1 & (T2 & T4) & T3).
    destruct prev as [v|]; [|apply (inv_fresh n i h None I Hn Logic.I)].
    destruct (N.ltb_spec (h_epoch h) (vi_epoch v)).
    { apply inv_finish; [exact I|]. destruct (h_epoch h =? vi_epoch v + 1); discriminate. }
    destruct (N.eqb_spec (h_epoch h) (vi_epoch v)) as [Ee|Ee].
    + destruct (N.ltb_spec (h_round h) (vi_round v)); [apply inv_finish; [exact I|discriminate]|].
      destruct (N.eqb_spec (h_round h) (vi_round v)) as [Er|Er].
      * destruct (N.eqb_spec (h_digest h) (vi_digest v)) as [Ed|Ed]; [|apply inv_finish; [exact I|discriminate]].
        assert (M : l_mem (n_db n) (hk h) = Some v).
        { destruct T3 as [T3|[_ T3]]; [symmetry; exact T3|]. cbn in T3. lia. }
        assert (V : v = vi_of h) by (destruct v; unfold vi_of; cbn in *; subst; reflexivity).
        assert (G : l_get (n_db n) (hk h) = Some (vi_of h)) by (unfold l_get; rewrite M, V; reflexivity).
        destruct (match_cand n h (vi_of h) I T1 G eq_refl) as [F _].
        eapply inv_replace; [exact I|exact Hn|apply incl_refl| |].
        -- split; [exact F|apply match_pre; assumption].
        -- eapply (uniq_add (cands n) _ h); [|apply cand_compat; assumption|apply I].
           intros x Hx. apply in_app_iff in Hx as [[->|[]]|Hx]; auto.
      * apply (inv_fresh n i h (Some v) I Hn). right. cbn. lia.
    + apply (inv_fresh n i h (Some v) I Hn). left. cbn. lia.
  - (* persist *)
    unfold ev_persist. destruct (nth_error (n_tasks n) i) as [t|] eqn:Hn; [|exact I].
    pose proof (i_tasks n I) as T. rewrite Forall_forall in T. pose proof (T _ (nth_error_In _ _ Hn)) as K.
    assert (Sd : forall h, In h (n_fresh n) -> pre (ep n) (n_db n) h ->
       waiting (hk h) (covers (ep n) h) (n_next n) (l_send (MBarrier (n_next n)) (n_db n)) /\
       (l_mem (n_db n) (hk h) = None -> settled (hk h) (covers (ep n) h) (l_send (MBarrier (n_next n)) (n_db n)))).
    { intros h F [P1 P2]. split.
      - apply barrier_waiting; [exact P1|]. intros Fl. rewrite <- (proj2 (i_base n I) Fl (hk h)). exact P1.
      - intros E. apply send_settled; [reflexivity|auto]. }
    destruct t; try exact I; cbn in K; destruct K as [K1 K2]; destruct (Sd h K1 K2) as [S1 S2].
    + apply (inv_replace (with_barrier n) i (TMatch h) (TFast h (n_next n))); [apply inv_barrier; exact I|exact Hn|apply incl_refl| |].
      * cbn. auto.
      * eapply uniq_incl; [|apply (i_uniq n I)]. intros x Hx. apply in_app_iff in Hx as [[->|[]]|Hx]; [|exact Hx].
        eapply in_tcand_task; [eapply nth_error_In; exact Hn|cbn; auto].
    + apply (inv_replace (with_barrier n) i (TPersist h) (TWait h (n_next n))); [apply inv_barrier; exact I|exact Hn|apply incl_refl| |].
      * cbn. auto.
      * eapply uniq_incl; [|apply (i_uniq n I)]. intros x Hx. apply in_app_iff in Hx as [[->|[]]|Hx]; [|exact Hx].
        eapply in_tcand_task; [eapply nth_error_In; exact Hn|cbn; auto].
  - (* ack *)
    unfold ev_ack. destruct (nth_error (n_tasks n) i) as [t|] eqn:Hn; [|exact I].
    pose proof (i_tasks n I) as T. rewrite Forall_forall in T. pose proof (T _ (nth_error_In _ _ Hn)) as K.
    assert (Cd : forall n', n_out n' = n_out n -> n_tasks n' = drop_at i (n_tasks n) -> forall h, In h (tcand t) -> uniq (h :: cands n')).
    { intros n' E1 E2 h Hh. eapply uniq_incl; [|apply (i_uniq n I)]. intros x [<-|Hx].
      - eapply in_tcand_task; [eapply nth_error_In; exact Hn|exact Hh].
      - unfold cands in *. rewrite E1, E2 in Hx. apply in_app_iff in Hx as [Hx|Hx]; apply in_app_iff; [auto|].
        right. apply in_flat_map in Hx as (u & Hu & Hx). apply in_flat_map. exists u. split; [eapply in_drop; exact Hu|exact Hx]. }
    destruct t; try exact I; cbn in K; destruct K as (K1 & K2 & K3).
    + destruct (acked n b true) eqn:Ea.
      * apply acked_in in Ea. assert (S : settled (hk h) (covers (ep n) h) (n_db n)) by (eapply ack_settles; [apply I|exact K2|exact Ea]).
        apply inv_out; [apply inv_drop; exact I|exact K1|exact S|]. apply Cd; [reflexivity|reflexivity|cbn; auto].
      * destruct (acked n b false); [apply inv_drop; exact I|exact I].
    + destruct (acked n b true) eqn:Ea.
      * apply acked_in in Ea. assert (S : settled (hk h) (covers (ep n) h) (n_db n)) by (eapply ack_settles; [apply I|exact K2|exact Ea]).
        assert (I2 : Inv (add_out (set_tasks n (drop_at i (n_tasks n))) h)).
        { apply inv_out; [apply inv_drop; exact I|exact K1|exact S|]. apply Cd; [reflexivity|reflexivity|cbn; auto]. }
        change (Inv (set_cache (add_out (set_tasks n (drop_at i (n_tasks n))) h) (h_author h)
            (Some (mkCentry (h_epoch h) (h_round h) (h_digest h) (Some (RVote h)))))).
        apply inv_cache; [exact I2|]. intros ce h' E1 E2. injection E1 as <-. cbn in E2. injection E2 as <-.
        cbn. apply in_app_iff. right. cbn. auto.
      * destruct (acked n b false); [|exact I]. apply inv_finish; [exact I|discriminate].
  - apply inv_drop. exact I.
  - (* database thread *)
    apply (inv_quiet n (l_run ok (n_db n)) (n_next n)); [exact I|apply quiet_run; apply I| |].
    + eapply Permutation_NoDup; [symmetry; apply all_ids_run|apply I].
    + rewrite Forall_forall. intros x Hx. assert (Hx' : In x (all_ids (n_db n))) by (eapply Permutation_in; [apply all_ids_run|exact Hx]).
      pose proof (i_idlt n I) as L. rewrite Forall_forall in L. auto.
  - destruct (other_op o) eqn:Eo; [|exact I].
    apply (inv_quiet n (l_do o (n_db n)) (n_next n)); [exact I|apply quiet_other; [apply I|exact Eo]| |]; rewrite all_ids_do; apply I.
  - destruct (other_msg m) eqn:Em; [|exact I].
    assert (Q : ops_of [m] = [] /\ bids [m] = []) by (destruct m; try discriminate; split; reflexivity). destruct Q as [Q1 Q2].
    apply (inv_quiet n (l_send m (n_db n)) (n_next n)); [exact I|apply quiet_send; [apply I|exact Q1]| |].
    + eapply Permutation_NoDup; [symmetry; apply all_ids_send|]. rewrite Q2. apply I.
    + rewrite Forall_forall. intros x Hx. assert (Hx' : In x (bids [m] ++ all_ids (n_db n))) by (eapply Permutation_in; [apply all_ids_send|exact Hx]).
      rewrite Q2 in Hx'. pose proof (i_idlt n I) as L. rewrite Forall_forall in L. auto.
  - apply inv_barrier. exact I.
  - (* crash *)
    assert (F : l_full (n_db n) = true) by apply I.
    assert (M : forall k, l_mem (l_crash (n_db n)) k = l_disk (n_db n) k) by (intros k; unfold l_crash, l_open; cbn; rewrite F; reflexivity).
    apply inv_reset; [exact I|apply I|lia|apply (base_step (n_db n) ECrash); apply I|constructor|constructor| | | |].
    + intros a. pose proof (i_good n I a) as G. inversion G as [|? ? _ G2]; subst. inversion G2 as [|? ? G3 _]; subst.
      rewrite M. constructor; [exact G3|]. eapply subl_Forall; [apply chain_crash|exact G2].
    + intros a. rewrite M. unfold chain, l_crash, l_open, staged. cbn. constructor; [|constructor].
      unfold vord. destruct (l_disk (n_db n) (vkey a)); auto.
    + intros a. unfold chain, l_crash, l_open, staged. cbn. repeat constructor.
    + intros h Hh. apply crash_settled; [exact F|]. pose proof (i_out n I) as O. rewrite Forall_forall in O. apply (O h Hh).
  - apply inv_reset; [exact I|apply I|lia|apply I|apply I|apply I|apply I|apply I|apply I|].
    intros h Hh. pose proof (i_out n I) as O. rewrite Forall_forall in O. apply (O h Hh).
  - (* next epoch *)
    destruct (N.ltb_spec (cm_epoch (n_com n)) (cm_epoch c)) as [L|]; [|exact I].
    assert (Mono : forall a x, vord (cm_epoch (n_com n)) x a -> vord (cm_epoch c) x a) by (intros a x; apply vord_ep; lia).
    assert (So : forall h, In h (n_out n) -> settled (hk h) (covers (cm_epoch c) h) (n_db n)).
    { intros h Hh. pose proof (i_out n I) as O. rewrite Forall_forall in O. destruct (O h Hh) as [_ O2].
      rewrite settled_chain in *. destruct O2 as [O2 O3]. split; [apply Mono; exact O2|].
      eapply Forall_impl; [|exact O3]. intros x. apply Mono. }
    assert (Ol : forall a x, good (n_fresh n) a x -> vord (cm_epoch c) x None).
    { intros a x Gx. unfold vord. destruct x as [v|]; [|exact Logic.I]. destruct Gx as (h & H1 & -> & _).
      pose proof (i_fresh n I) as Fr. rewrite Forall_forall in Fr. destruct (Fr h H1) as (_ & F2 & _). unfold ep in F2. cbn. lia. }
    destruct clear.
    + set (o := Clr VOTES). assert (Eff : forall a, effect (vkey a) o = Some None) by reflexivity.
      assert (Mem : forall a, l_mem (l_do o (n_db n)) (vkey a) = None) by reflexivity.
      assert (Ch : forall a, chain (vkey a) (l_do o (n_db n)) = chain (vkey a) (n_db n) ++ [None]).
      { intros a. rewrite chain_do. reflexivity. }
      apply inv_reset; [exact I|apply built_wf; exact R|lia|apply (base_step (n_db n) (EWrite o)); apply I|
                        rewrite all_ids_do; apply I|rewrite all_ids_do; apply I| | | |].
      * intros a. rewrite Mem, Ch. pose proof (i_good n I a) as G. inversion G; subst.
        constructor; [exact Logic.I|]. apply Forall_app. split; [assumption|repeat constructor].
      * intros a. rewrite Mem, Ch. pose proof (i_good n I a) as G. inversion G as [|? ? _ G2]; subst.
        apply Forall_app. split; [|repeat constructor]. eapply Forall_impl; [|exact G2]. intros x. apply Ol.
      * intros a. rewrite Ch. pose proof (i_good n I a) as G. inversion G as [|? ? _ G2]; subst. clear G.
        pose proof (i_ord n I a) as O. induction O as [|x l Hx O IH]; [repeat constructor|]. inversion G2; subst.
        cbn. constructor; [|apply IH; assumption]. apply Forall_app. split.
        -- eapply Forall_impl; [|exact Hx]. intros y. apply Mono.
        -- repeat constructor. eapply Ol. eassumption.
      * intros h Hh. apply do_settled; [|apply So; exact Hh]. unfold op_ok, hk. rewrite Eff.
        pose proof (i_out n I) as O. rewrite Forall_forall in O. destruct (O h Hh) as [O1 _].
        apply (Ol (h_author h)). exists h. auto.
    + apply inv_reset; [exact I|apply built_wf; exact R|lia|apply I|apply I|apply I|apply I| | |exact So].
      * intros a. eapply Forall_impl; [|apply (i_mem n I)]. intros x. apply Mono.
      * intros a. pose proof (i_ord n I a) as O. induction O as [|x l Hx O IH]; constructor; [|assumption].
        eapply Forall_impl; [|exact Hx]. intros y. apply Mono.
Qed.

Lemma run_inv evs : forall n, Inv n -> Forall ev_real evs -> Inv (vrun n evs).
Proof.
  induction evs as [|e evs IH]; intros n I H; [exact I|]. inversion H; subst. cbn. apply IH; [|assumption].
  apply step_inv; assumption.
Qed.
End Inv.
