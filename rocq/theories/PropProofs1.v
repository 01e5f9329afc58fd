(* C29: the invariant of the proposer's guard record. *)
From Verif Require Import Util Types LdbModel LdbProofs LdbHist LdbChain VoteModel PropModel PropSpec.
Local Open Scope N_scope.

(* ---- changes of the database that do not write key k ---- *)
Record quietk (k : key) (d d' : ldb pval) : Prop := mkQuietk {
  qk_base : base d';
  qk_mem : l_mem d' k = l_mem d k;
  qk_chain : subl (chain k d') (chain k d);
  qk_wait : forall P b, waiting k P b d -> waiting k P b d'
}.
Lemma quietk_refl k d : base d -> quietk k d d.
Proof. intros B. constructor; auto. apply subl_refl. Qed.
Lemma quietk_settled k d d' P : quietk k d d' -> settled k P d -> settled k P d'.
Proof.
  intros Q. rewrite !settled_chain. intros [H1 H2]. rewrite (qk_mem _ _ _ Q). split; [exact H1|].
  eapply subl_Forall; [apply (qk_chain _ _ _ Q)|exact H2].
Qed.
Lemma quietk_run k ok d : base d -> quietk k d (l_run ok d).
Proof.
  intros B. constructor.
  - apply (base_step d (ERun ok) B).
  - rewrite mem_run by apply B. reflexivity.
  - apply chain_run.
  - intros P b. apply run_waiting. apply B.
Qed.
Lemma quietk_send k m d : base d -> ops_of [m] = [] -> quietk k d (l_send m d).
Proof.
  intros B Hm. constructor.
  - split; [apply B|apply coherent_send; [exact Hm|apply B]].
  - reflexivity.
  - rewrite chain_send by exact Hm. apply subl_refl.
  - intros P b. apply send_waiting. exact Hm.
Qed.
Lemma quietk_do k o d : base d -> effect k o = None -> quietk k d (l_do o d).
Proof.
  intros B Ho. constructor.
  - apply (base_step d (EWrite o) B).
  - unfold l_do. cbn. rewrite apply_effect, Ho. reflexivity.
  - rewrite chain_do. unfold eff. cbn. rewrite Ho. rewrite app_nil_r. apply subl_refl.
  - intros P b. apply do_waiting. unfold op_ok. rewrite Ho. exact I.
Qed.
Lemma other_kp o : other_pop o = true -> effect KP o = None.
Proof.
  intros H. destruct o as [k v|k|t]; unfold other_pop in H; unfold effect; apply andb_true_iff in H as [H _]; apply negb_true_iff in H.
  - unfold key_eqb, KP. cbn [fst snd]. rewrite N.eqb_sym, H. reflexivity.
  - unfold key_eqb, KP. cbn [fst snd]. rewrite N.eqb_sym, H. reflexivity.
  - unfold KP. cbn [fst snd]. rewrite N.eqb_sym, H. reflexivity.
Qed.
Lemma other_kc o g : other_pop o = true -> effect (KC g) o = None.
Proof.
  intros H. destruct o as [k v|k|t]; unfold other_pop in H; unfold effect; apply andb_true_iff in H as [_ H]; apply negb_true_iff in H.
  - unfold key_eqb, KC. cbn [fst snd]. rewrite N.eqb_sym, H. reflexivity.
  - unfold key_eqb, KC. cbn [fst snd]. rewrite N.eqb_sym, H. reflexivity.
  - unfold KC. cbn [fst snd]. rewrite N.eqb_sym, H. reflexivity.
Qed.
Lemma kc_inj g g' : key_eqb (KC g) (KC g') = (g =? g').
Proof. reflexivity. Qed.
Lemma mem_crash d k : l_full d = true -> l_mem (l_crash d) k = l_disk (V:=pval) d k.
Proof. intros F. unfold l_crash, l_open. cbn. rewrite F. reflexivity. Qed.
Lemma chain_crash_eq k (d : ldb pval) : chain k (l_crash d) = [l_disk d k].
Proof. unfold chain, l_crash, l_open, staged. reflexivity. Qed.
Lemma FOP_snoc {A} (R : A -> A -> Prop) l x : ForallOrdPairs R l -> Forall (fun y => R y x) l -> ForallOrdPairs R (l ++ [x]).
Proof.
  intros O. induction O as [|y l Hy O IH]; intros M; [repeat constructor|]. inversion M; subst. cbn.
  constructor; [|apply IH; assumption]. apply Forall_app. split; [exact Hy|repeat constructor; assumption].
Qed.
Lemma FOP_impl {A} (R S : A -> A -> Prop) l : (forall x y, R x y -> S x y) -> ForallOrdPairs R l -> ForallOrdPairs S l.
Proof.
  intros H O. induction O as [|x l Hx O IH]; constructor; [|assumption]. eapply Forall_impl; [|exact Hx]. intros y. apply H.
Qed.

(* ---- the database part, shared ---- *)
Record Inv0 (d : ldb pval) (nx : N) : Prop := mkInv0 {
  z_base : base d;
  z_ids : NoDup (all_ids d);
  z_idlt : Forall (fun i => i < nx) (all_ids d)
}.
Lemma inv0_do d nx o : Inv0 d nx -> Inv0 (l_do o d) nx.
Proof. intros [B H1 H2]. constructor; rewrite ?all_ids_do; auto. apply (base_step d (EWrite o) B). Qed.
Lemma inv0_run d nx ok : Inv0 d nx -> Inv0 (l_run ok d) nx.
Proof.
  intros [B H1 H2]. constructor.
  - apply (base_step d (ERun ok) B).
  - eapply Permutation_NoDup; [symmetry; apply all_ids_run|exact H1].
  - rewrite Forall_forall in *. intros i Hi. apply H2. eapply Permutation_in; [apply all_ids_run|exact Hi].
Qed.
Lemma inv0_send d nx m : ops_of [m] = [] -> bids [m] = [] -> Inv0 d nx -> Inv0 (l_send m d) nx.
Proof.
  intros E1 E2 [B H1 H2]. constructor.
  - split; [apply B|apply coherent_send; [exact E1|apply B]].
  - eapply Permutation_NoDup; [symmetry; apply all_ids_send|]. rewrite E2. exact H1.
  - rewrite Forall_forall in *. intros i Hi.
    assert (Hi' : In i (bids [m] ++ all_ids d)) by (eapply Permutation_in; [apply all_ids_send|exact Hi]).
    rewrite E2 in Hi'. auto.
Qed.
Lemma inv0_barrier d nx : Inv0 d nx -> Inv0 (l_send (MBarrier nx) d) (nx + 1).
Proof.
  intros [B H1 H2]. constructor.
  - split; [apply B|apply coherent_send; [reflexivity|apply B]].
  - eapply Permutation_NoDup; [symmetry; apply all_ids_send|]. cbn. constructor; [|exact H1].
    intros H. rewrite Forall_forall in H2. specialize (H2 _ H). lia.
  - rewrite Forall_forall in *. intros i Hi.
    assert (Hi' : In i (bids [MBarrier (V:=pval) nx] ++ all_ids d)) by (eapply Permutation_in; [apply all_ids_send|exact Hi]).
    cbn in Hi'. destruct Hi' as [<-|Hi']; [lia|]. specialize (H2 _ Hi'). lia.
Qed.
Lemma inv0_crash d nx : Inv0 d nx -> Inv0 (l_crash d) nx.
Proof. intros [B H1 H2]. constructor; [apply (base_step d ECrash B)|constructor|constructor]. Qed.
Lemma other_quiet m : other_pmsg m = true -> ops_of [m] = [] /\ bids [m] = [].
Proof. destruct m; try discriminate; split; reflexivity. Qed.

Ltac inv0_easy := match goal with H : Inv0 _ _ |- _ => exact H end.
Lemma inv0_step n e : Inv0 (p_db n) (p_next n) -> Inv0 (p_db (pstep n e)) (p_next (pstep n e)).
Proof.
  intros Z. destruct e; cbn [pstep].
  - unfold ev_parents. destruct (p_round n <? q); exact Z.
  - unfold ev_propose. destruct (p_task n); try exact Z. destruct read_ok; cbn [negb]; [|exact Z].
    cbn [set_rounds p_db]. destruct (last_proposed (p_db n)) as [h|]; [|exact Z].
    destruct (_ && _); exact Z.
  - unfold ev_repropose. destruct (p_task n); try exact Z. destruct (last_proposed (p_db n)); exact Z.
  - unfold ev_store. destruct (p_task n); try exact Z. destruct read_ok; cbn [negb]; [|exact Z].
    destruct (match last_proposed (p_db n) with Some _ => _ | None => _ end); [|exact Z].
    destruct write_ok; [|exact Z]. apply inv0_do. exact Z.
  - unfold ev_ppersist. destruct (p_task n); try exact Z. apply inv0_barrier. exact Z.
  - unfold ev_pack. destruct (p_task n); try exact Z. destruct (packed n b true); [exact Z|]. destruct (packed n b false); exact Z.
  - unfold ev_send. destruct (p_task n); exact Z.
  - unfold ev_recv. destruct (p_chan n); exact Z.
  - unfold ev_clock. destruct (nth_error (p_certs n) i) as [[]|]; try exact Z.
    destruct (existsb holds_lock (p_certs n)); [exact Z|].
    destruct (stored_cert (p_db n) (h_digest h)); [exact Z|]. destruct (h_epoch h =? p_epoch n); exact Z.
  - unfold ev_cert. destruct (nth_error (p_certs n) i) as [[]|]; try exact Z. destruct write_ok; [|exact Z].
    apply inv0_do. exact Z.
  - unfold ev_cpersist. destruct (nth_error (p_certs n) i) as [[]|]; try exact Z. apply inv0_barrier. exact Z.
  - unfold ev_cack. destruct (nth_error (p_certs n) i) as [[]|]; try exact Z.
    destruct (packed n b true); [exact Z|]. destruct (packed n b false); exact Z.
  - exact Z.
  - apply inv0_run. exact Z.
  - destruct (other_pop o); [apply inv0_do|]; exact Z.
  - destruct (other_pmsg m) eqn:E; [|exact Z]. destruct (other_quiet m E). apply inv0_send; assumption.
  - apply inv0_barrier. exact Z.
  - apply inv0_crash. exact Z.
  - exact Z.
  - destruct (p_epoch n <? e); [|exact Z]. destruct clear1, clear2; cbn [rebuild p_db p_next]; repeat apply inv0_do; exact Z.
Qed.

(* ---- the record of the last proposal ---- *)
Definition pord (e : N) (x y : option pval) : Prop :=
  match x with
  | Some (VH v) => h_epoch v = e -> exists w, y = Some (VH w) /\ h_epoch w = e /\ (h_round v < h_round w \/ v = w)
  | _ => True
  end.
Definition cov (e : N) (h : header) : option pval -> Prop := pord e (Some (VH h)).
Definition pgood (e : N) (x : option pval) : Prop :=
  match x with Some (VH v) => h_epoch v <= e | Some (VC _) => False | None => True end.
Definition hdrs (l : list (option pval)) : list header :=
  flat_map (fun x => match x with Some (VH v) => [v] | _ => [] end) l.
Definition same_slot (a b : header) : Prop := h_epoch a = h_epoch b /\ h_round a = h_round b.
Definition huniq (l : list header) : Prop := forall a b, In a l -> In b l -> same_slot a b -> a = b.
Definition task_hdr (t : ptask) : list header :=
  match t with PIdle | PDead => [] | PStart h | PPersist h | PWait h _ | PSend h => [h] end.

Lemma pord_trans e x y z : pord e x y -> pord e y z -> pord e x z.
Proof.
  unfold pord. destruct x as [[v|]|]; auto. intros H1 H2 E. destruct (H1 E) as (w & -> & E2 & R). cbn in H2.
  destruct (H2 E2) as (u & -> & E3 & R2). exists u. split; [reflexivity|]. split; [exact E3|].
  destruct R as [R| ->], R2 as [R2| ->]; auto; left; lia.
Qed.
Lemma pord_old e x y : pgood e x -> (forall v, x = Some (VH v) -> h_epoch v < e) -> pord e x y.
Proof. intros G H. unfold pord. destruct x as [[v|]|]; auto. intros E. specialize (H v eq_refl). lia. Qed.
Lemma in_hdrs v l : In v (hdrs l) <-> In (Some (VH v)) l.
Proof.
  unfold hdrs. rewrite in_flat_map. split.
  - intros ([[w|]|] & H & K); cbn in K; try tauto. destruct K as [->|[]]. exact H.
  - intros H. exists (Some (VH v)). split; [exact H|cbn; auto].
Qed.

(* newer than the current record, or the record itself *)
Definition may_store (e : N) (d : ldb pval) (h : header) : Prop :=
  (h_epoch h = e /\ forall w, l_mem d KP = Some (VH w) -> h_epoch w = e -> h_round w < h_round h) \/
  l_mem d KP = Some (VH h) \/ (l_mem d KP = None /\ h_epoch h < e).
Definition ptask_ok (e rd : N) (d : ldb pval) (t : ptask) : Prop :=
  match t with
  | PIdle | PDead => True
  | PStart h => h_epoch h <= e /\ may_store e d h /\ (h_epoch h = e -> h_round h <= rd \/ l_mem d KP = Some (VH h))
  | PPersist h => h_epoch h <= e /\ l_mem d KP = Some (VH h)
  | PWait h b => h_epoch h <= e /\ l_mem d KP = Some (VH h) /\ waiting KP (cov e h) b d
  | PSend h => h_epoch h <= e /\ settled KP (cov e h) d /\ (h_epoch h = e -> l_mem d KP = Some (VH h))
  end.
Definition pool (d : ldb pval) (t : ptask) (s : list header) : list header :=
  s ++ task_hdr t ++ hdrs (l_mem d KP :: chain KP d).

Record PI (e rd pr : N) (d : ldb pval) (t : ptask) (s : list header) : Prop := mkPI {
  pi_good : Forall (pgood e) (l_mem d KP :: chain KP d);
  pi_mem : Forall (fun x => pord e x (l_mem d KP)) (chain KP d);
  pi_ord : ForallOrdPairs (pord e) (chain KP d);
  pi_sent : Forall (fun h => h_epoch h <= e /\ settled KP (cov e h) d) s;
  pi_task : ptask_ok e rd d t;
  pi_uniq : huniq (pool d t s);
  pi_bound : forall m, l_mem d KP = Some (VH m) -> h_epoch m = e -> h_round m <= N.max rd pr + 1
}.
Definition PInv (n : pnode) : Prop :=
  PI (p_epoch n) (p_round n) (p_prim n) (p_db n) (p_task n) (p_sent n).

Lemma huniq_incl l l' : incl l' l -> huniq l -> huniq l'.
Proof. intros H U a b Ha Hb. apply U; apply H; assumption. Qed.
Lemma hdrs_quiet d d' : quietk KP d d' -> incl (hdrs (l_mem d' KP :: chain KP d')) (hdrs (l_mem d KP :: chain KP d)).
Proof.
  intros Q v. rewrite !in_hdrs. cbn [In]. rewrite (qk_mem _ _ _ Q). intros [H|H]; [auto|]. right. eapply subl_In; [apply (qk_chain _ _ _ Q)|exact H].
Qed.
(* a turn of the database thread and the like: the proposer's invariant survives *)
Lemma pi_quiet e rd pr d d' t s : quietk KP d d' -> PI e rd pr d t s -> PI e rd pr d' t s.
Proof.
  intros Q [G M O S T U B]. pose proof (qk_mem _ _ _ Q) as Em. pose proof (qk_chain _ _ _ Q) as Ec. constructor.
  - rewrite Em. inversion G; subst. constructor; [assumption|]. eapply subl_Forall; [exact Ec|assumption].
  - rewrite Em. eapply subl_Forall; [exact Ec|exact M].
  - eapply subl_FOP; [exact Ec|exact O].
  - eapply Forall_impl; [|exact S]. intros h [H1 H2]. split; [exact H1|]. eapply quietk_settled; eassumption.
  - destruct t; cbn in *; auto.
    + unfold may_store in *. rewrite Em. exact T.
    + rewrite Em. exact T.
    + rewrite Em. destruct T as (T1 & T2 & T3). split; [exact T1|]. split; [exact T2|]. apply (qk_wait _ _ _ Q). exact T3.
    + rewrite Em. destruct T as (T1 & T2 & T3). split; [exact T1|]. split; [eapply quietk_settled; eassumption|exact T3].
  - eapply huniq_incl; [|exact U]. unfold pool. apply incl_app; [apply incl_appl, incl_refl|].
    apply incl_appr. apply incl_app; [apply incl_appl, incl_refl|]. apply incl_appr. apply hdrs_quiet. exact Q.
  - rewrite Em. exact B.
Qed.

(* ---- the steps ---- *)
Lemma get_or d : l_mem d KP = None /\ l_get d KP = l_disk (V:=pval) d KP \/ l_get d KP = l_mem d KP.
Proof. unfold l_get. destruct (l_mem d KP); auto. Qed.
Lemma last_get d h : last_proposed d = Some h <-> l_get d KP = Some (VH h).
Proof. unfold last_proposed. destruct (l_get d KP) as [[v|]|]; split; intros H; try discriminate; injection H as ->; reflexivity. Qed.
(* what a reader sees *)
Lemma get_cases e rd pr d t s h : PI e rd pr d t s -> l_get d KP = Some (VH h) ->
  h_epoch h <= e /\ In h (hdrs (l_mem d KP :: chain KP d)) /\
  (l_mem d KP = Some (VH h) \/ (l_mem d KP = None /\ h_epoch h < e)).
Proof.
  intros [G M O S T U B] H. assert (Hin : In (Some (VH h)) (l_mem d KP :: chain KP d)).
  { destruct (get_or d) as [[_ E]|E]; rewrite E in H; [right; left; exact H|left; exact H]. }
  rewrite Forall_forall in G. pose proof (G _ Hin) as Gh. cbn in Gh. split; [exact Gh|]. split; [apply in_hdrs; exact Hin|].
  destruct (get_or d) as [[E1 E]|E]; rewrite E in H; [right|left; exact H]. split; [exact E1|].
  rewrite Forall_forall in M. specialize (M (Some (VH h))). cbn in M.
  destruct (N.eq_dec (h_epoch h) e) as [E2|E2]; [|lia].
  destruct (M (or_introl H) E2) as (w & K & _). rewrite E1 in K. discriminate.
Qed.

(* any header recorded, pending or sent in the current epoch is at most the record *)
Lemma pool_le e rd pr d s x : PI e rd pr d PIdle s -> In x (pool d PIdle s) -> h_epoch x = e ->
  exists w, l_mem d KP = Some (VH w) /\ h_epoch w = e /\ h_round x <= h_round w.
Proof.
  intros [G M O S T U B] H E. unfold pool in H. cbn [task_hdr app] in H. apply in_app_iff in H as [H|H].
  - rewrite Forall_forall in S. destruct (S x H) as [_ [S1 _]]. cbn in S1. destruct (S1 E) as (w & -> & E2 & R).
    exists w. repeat split; auto. destruct R as [R| ->]; lia.
  - apply in_hdrs in H as [H|H].
    + exists x. repeat split; auto. lia.
    + rewrite Forall_forall in M. specialize (M _ H E). destruct M as (w & -> & E2 & R).
      exists w. repeat split; auto. destruct R as [R| ->]; lia.
Qed.

Lemma pi_mx e rd pr rd' pr' d s : N.max rd pr <= N.max rd' pr' -> PI e rd pr d PIdle s -> PI e rd' pr' d PIdle s.
Proof.
  intros L [G M O S T U B]. constructor; auto. intros m H1 H2. specialize (B m H1 H2). lia.
Qed.
Lemma pi_task_set e rd pr d t t' s : PI e rd pr d t s -> ptask_ok e rd d t' -> incl (task_hdr t') (pool d t s) -> PI e rd pr d t' s.
Proof.
  intros [G M O S T U B] T' Hi. constructor; auto. eapply huniq_incl; [|exact U]. intros x Hx. unfold pool in Hx.
  apply in_app_iff in Hx as [Hx|Hx]; [apply in_app_iff; auto|]. apply in_app_iff in Hx as [Hx|Hx]; [auto|].
  apply in_app_iff; right; apply in_app_iff; auto.
Qed.

Lemma pi_propose e rd pr d s b me r : PI e rd pr d PIdle s -> r = N.max rd pr + 1 ->
  (forall h, last_proposed d = Some h -> h_round h = r -> h_epoch h = e -> False) ->
  PI e r r d (PStart (mkHeader me r e (h_created b) (h_payload b) (h_parents b) (h_exec_num b) (h_exec_hash b) (h_seed b) (h_digest b))) s.
Proof.
  intros P -> Hf. set (h := mkHeader _ _ _ _ _ _ _ _ _ _).
  assert (Lt : forall w, l_mem d KP = Some (VH w) -> h_epoch w = e -> h_round w < N.max rd pr + 1).
  { intros w H1 H2. pose proof (pi_bound _ _ _ _ _ _ P w H1 H2) as L.
    assert (h_round w <> N.max rd pr + 1); [|lia]. intros K. apply (Hf w); auto. apply last_get. unfold l_get. rewrite H1. reflexivity. }
  pose proof (pi_mx e rd pr (N.max rd pr + 1) (N.max rd pr + 1) d s ltac:(lia) P) as P'. destruct P' as [G M O S T U B].
  constructor; auto.
  - cbn. split; [lia|]. split; [|lia]. left. split; [reflexivity|exact Lt].
  - intros a c Ha Hc Sl.
    assert (K : forall x, In x (pool d (PStart h) s) -> x = h \/ In x (pool d PIdle s)).
    { intros x. unfold pool. cbn [task_hdr]. rewrite !in_app_iff. cbn. intuition. }
    assert (F : forall x, In x (pool d PIdle s) -> same_slot x h -> False).
    { intros x Hx [S1 S2]. cbn in S1, S2. destruct (pool_le e rd pr d s x P Hx S1) as (w & W1 & W2 & W3).
      specialize (Lt w W1 W2). lia. }
    destruct (K a Ha) as [-> |Ka], (K c Hc) as [-> |Kc]; [reflexivity| | |apply U; assumption].
    + exfalso. apply (F c Kc). destruct Sl. split; symmetry; assumption.
    + exfalso. apply (F a Ka). exact Sl.
Qed.
Lemma pi_repropose e rd pr d s h : PI e rd pr d PIdle s -> last_proposed d = Some h -> PI e rd pr d (PStart h) s.
Proof.
  intros P H. apply last_get in H. destruct (get_cases _ _ _ _ _ _ _ P H) as (E & Hin & C).
  eapply pi_task_set; [exact P| |].
  - cbn. split; [exact E|]. split; [unfold may_store; tauto|]. intros K. destruct C as [C|[_ C]]; [|lia]. right. exact C.
  - intros x [<-|[]]. unfold pool. apply in_app_iff. right. apply in_app_iff. right. exact Hin.
Qed.
Lemma pi_store e rd pr d s h : base d -> PI e rd pr d (PStart h) s -> PI e rd pr (l_do (Ins KP (VH h)) d) (PPersist h) s.
Proof.
  intros Bs [G M O S T U B]. destruct T as (T1 & T2 & T3).
  assert (Gr : forall x, pord e x (l_mem d KP) -> pord e x (Some (VH h))).
  { intros x. unfold pord. destruct x as [[v|]|]; auto. intros H E. destruct (H E) as (w & W1 & W2 & W3).
    destruct T2 as [[Te T2]|[T2|[T2 _]]].
    - exists h. split; [reflexivity|]. split; [exact Te|]. left. specialize (T2 w W1 W2). destruct W3 as [W3| ->]; lia.
    - rewrite W1 in T2. injection T2 as ->. exists h. auto.
    - rewrite W1 in T2. discriminate. }
  assert (Mem : l_mem (l_do (Ins KP (VH h)) d) KP = Some (VH h)) by reflexivity.
  assert (Ch : chain KP (l_do (Ins KP (VH h)) d) = chain KP d ++ [Some (VH h)]) by (rewrite chain_do; reflexivity).
  constructor.
  - rewrite Mem, Ch. inversion G; subst. constructor; [exact T1|]. apply Forall_app. split; [assumption|]. repeat constructor. exact T1.
  - rewrite Mem, Ch. apply Forall_app. split.
    + eapply Forall_impl; [|exact M]. intros x Hx. apply Gr. exact Hx.
    + repeat constructor. cbn. intros E. exists h. auto.
  - rewrite Ch. apply FOP_snoc; [exact O|]. eapply Forall_impl; [|exact M]. intros x Hx. apply Gr. exact Hx.
  - eapply Forall_impl; [|exact S]. intros x [S1 S2]. split; [exact S1|]. apply do_settled; [|exact S2].
    unfold op_ok. change (effect KP (Ins KP (VH h))) with (Some (Some (VH h))). apply Gr. apply S2.
  - cbn [ptask_ok]. split; [exact T1|exact Mem].
  - eapply huniq_incl; [|exact U]. unfold pool. rewrite Mem, Ch. cbn [task_hdr]. intros x Hx.
    apply in_app_iff in Hx as [Hx|Hx]; [apply in_app_iff; auto|]. apply in_app_iff. right.
    apply in_app_iff in Hx as [Hx|Hx]; [apply in_app_iff; auto|]. apply in_app_iff.
    apply in_hdrs in Hx as [Hx|Hx]; [injection Hx as ->; left; left; reflexivity|].
    apply in_app_iff in Hx as [Hx|[Hx|[]]]; [|injection Hx as ->; left; left; reflexivity].
    right. apply in_hdrs. right. exact Hx.
  - intros m H1 H2. rewrite Mem in H1. injection H1 as <-. destruct (T3 H2) as [K|K]; [lia|]. apply B; assumption.
Qed.
(* without the write: only a record of an earlier epoch can be skipped *)
Lemma pi_skip e rd pr d s h l : PI e rd pr d (PStart h) s -> last_proposed d = Some l ->
  negb (h_epoch l =? h_epoch h) || (h_round l <=? h_round h) = false -> PI e rd pr d (PSend h) s.
Proof.
  intros P H K. apply orb_false_iff in K as [K1 K2]. apply negb_false_iff in K1. apply N.eqb_eq in K1. apply N.leb_gt in K2.
  apply last_get in H. destruct (get_cases _ _ _ _ _ _ _ P H) as (E & Hin & C).
  pose proof (pi_task _ _ _ _ _ _ P) as (T1 & T2 & T3).
  assert (Old : h_epoch h < e).
  { destruct T2 as [[Te T2]|[T2|[_ T2]]]; [|  |exact T2].
    - destruct C as [C|[_ C]]; [|lia]. specialize (T2 l C ltac:(lia)). lia.
    - destruct C as [C|[C _]]; [|congruence]. rewrite T2 in C. injection C as ->. lia. }
  eapply pi_task_set; [exact P| |].
  - cbn. split; [exact T1|]. rewrite settled_chain.
    assert (V : forall x, cov e h x) by (intros x; unfold cov, pord; intros; lia).
    split; [|lia]. split; [apply V|]. apply Forall_forall. intros x _. apply V.
  - intros x [<-|[]]. unfold pool. apply in_app_iff. right. apply in_app_iff. left. left. reflexivity.
Qed.
Lemma pi_barrier e rd pr d s h b : base d -> PI e rd pr d (PPersist h) s -> PI e rd pr (l_send (MBarrier b) d) (PWait h b) s.
Proof.
  intros Bs P. pose proof (pi_task _ _ _ _ _ _ P) as [T1 T2].
  assert (Q : quietk KP d (l_send (MBarrier b) d)) by (apply quietk_send; [exact Bs|reflexivity]).
  eapply (pi_task_set e rd pr _ (PPersist h)); [eapply pi_quiet; [exact Q|exact P]| |].
  - cbn [ptask_ok]. split; [exact T1|]. split; [exact T2|]. apply barrier_waiting.
    + rewrite T2. cbn. intros E. exists h. auto.
    + intros F. rewrite <- (proj2 Bs F KP), T2. cbn. intros E. exists h. auto.
  - intros x [<-|[]]. unfold pool. apply in_app_iff. right. apply in_app_iff. left. left. reflexivity.
Qed.
Lemma pi_sent_add e rd pr d s h : PI e rd pr d (PSend h) s -> PI e rd pr d PIdle (s ++ [h]).
Proof.
  intros [G M O S T U B]. constructor; auto.
  - apply Forall_app. split; [exact S|]. repeat constructor; apply T.
  - exact I.
  - eapply huniq_incl; [|exact U]. unfold pool. cbn [task_hdr]. intros x. rewrite !in_app_iff. cbn. tauto.
Qed.
Lemma packed_in n b r : packed n b r = true -> In (b, r) (l_acks (p_db n)).
Proof.
  unfold packed. rewrite existsb_exists. intros ([i x] & H & E). cbn in E. apply andb_true_iff in E as [E1 E2].
  apply N.eqb_eq in E1. apply Bool.eqb_prop in E2. subst. exact H.
Qed.
(* a rebuild: the pending header is gone, the record is read again *)
Lemma pi_rebuild e d prim t s rd pr : PI e rd pr d t s -> PI e (recovered_round d e prim true) prim d PIdle s.
Proof.
  intros [G M O S T U B]. constructor; auto.
  - exact I.
  - eapply huniq_incl; [|exact U]. unfold pool. intros x. rewrite !in_app_iff. cbn [task_hdr In]. tauto.
  - intros m H1 H2. unfold recovered_round. assert (L : last_proposed d = Some m) by (apply last_get; unfold l_get; rewrite H1; reflexivity).
    rewrite L, H2, N.eqb_refl. cbn [andb]. destruct (N.ltb_spec prim (h_round m)); lia.
Qed.
Lemma pi_epoch e e' rd pr rd' pr' d t s : e < e' -> PI e rd pr d t s -> PI e' rd' pr' d PIdle s.
Proof.
  intros L [G M O S T U B].
  assert (Old : forall x y, pgood e x -> pord e' x y).
  { intros x y Gx. unfold pord. destruct x as [[v|]|]; auto. cbn in Gx. lia. }
  inversion G as [|? ? Gm Gc]; subst. constructor.
  - eapply Forall_impl; [|exact G]. intros x. unfold pgood. destruct x as [[v|]|]; auto. lia.
  - eapply Forall_impl; [|exact Gc]. intros x Hx. apply Old. exact Hx.
  - clear - Gc Old. induction Gc as [|x l Hx Gc IH]; constructor; [|exact IH].
    apply Forall_forall. intros y _. apply Old. exact Hx.
  - eapply Forall_impl; [|exact S]. intros h [S1 S2]. split; [lia|]. apply settled_chain.
    assert (V : forall x, cov e' h x) by (intros x; unfold cov; apply Old; exact S1).
    split; [apply V|]. apply Forall_forall. intros x _. apply V.
  - exact I.
  - eapply huniq_incl; [|exact U]. unfold pool. intros x. rewrite !in_app_iff. cbn [task_hdr In]. tauto.
  - intros m H1 H2. rewrite H1 in Gm. cbn in Gm. lia.
Qed.
Lemma pi_clear e rd pr d s : base d -> PI e rd pr d PIdle s -> (forall x, In x (l_mem d KP :: chain KP d) -> pgood (e - 1) x) ->
  (forall h, In h s -> h_epoch h < e) -> 0 < e -> PI e rd pr (l_do (Clr LASTP) d) PIdle s.
Proof.
  intros Bs [G M O S T U B] Old Os He.
  assert (Mem : l_mem (l_do (Clr LASTP) d) KP = None) by reflexivity.
  assert (Ch : chain KP (l_do (Clr LASTP) d) = chain KP d ++ [None]) by (rewrite chain_do; reflexivity).
  assert (V : forall x y, In x (chain KP d) -> pord e x y).
  { intros x y Hx. specialize (Old x (or_intror Hx)). unfold pord. destruct x as [[v|]|]; auto. cbn in Old. lia. }
  inversion G as [|? ? Gm Gc]; subst. constructor.
  - rewrite Mem, Ch. constructor; [exact I|]. apply Forall_app. split; [exact Gc|repeat constructor].
  - rewrite Mem, Ch. apply Forall_app. split; [|repeat constructor]. apply Forall_forall. intros x Hx. apply V. exact Hx.
  - rewrite Ch. apply FOP_snoc; [exact O|]. apply Forall_forall. intros x Hx. apply V. exact Hx.
  - apply Forall_forall. intros h Hh. rewrite Forall_forall in S. destruct (S h Hh) as [S1 S2]. split; [exact S1|].
    apply settled_chain. specialize (Os h Hh).
    assert (V2 : forall x, cov e h x) by (intros x; unfold cov, pord; intros; lia).
    split; [apply V2|]. apply Forall_forall. intros x _. apply V2.
  - exact I.
  - eapply huniq_incl; [|exact U]. unfold pool. rewrite Mem, Ch. cbn [task_hdr app]. intros x. rewrite !in_app_iff.
    intros [H|H]; [auto|]. right. apply in_hdrs in H. apply in_hdrs. destruct H as [H|H]; [discriminate|].
    apply in_app_iff in H as [H|[H|[]]]; [right; exact H|discriminate].
  - intros m H1. rewrite Mem in H1. discriminate.
Qed.

Lemma pinv_init me e prim disk : disk KP = None -> PInv (pinit me e prim disk).
Proof.
  intros H. unfold PInv, pinit. cbn [p_epoch p_round p_prim p_db p_task p_sent].
  assert (Ch : chain KP (l_open true disk) = [None]) by (unfold chain, l_open, staged; cbn; rewrite H; reflexivity).
  assert (Mm : l_mem (l_open true disk) KP = None) by (unfold l_open; cbn; exact H).
  constructor; rewrite ?Ch, ?Mm; repeat constructor.
  - intros a b Ha. unfold pool in Ha. rewrite Mm, Ch in Ha. destruct Ha.
  - intros m K. discriminate.
Qed.
Lemma inv0_init me e prim disk : Inv0 (p_db (pinit me e prim disk)) (p_next (pinit me e prim disk)).
Proof. constructor; [apply base_open|constructor|constructor]. Qed.


Ltac pcb := cbn [set_rounds set_task set_pdb set_certs p_barrier add_sent add_ext p_epoch p_round p_prim p_db p_task p_sent p_next rebuild].
Lemma pstep_pinv n e : Inv0 (p_db n) (p_next n) -> PInv n -> quiet_start n e -> PInv (pstep n e).
Proof.
  intros Z P Hq. pose proof (z_base _ _ Z) as Bs. unfold PInv in *. destruct e; cbn [pstep].
  - (* parents *)
    cbn in Hq. unfold ev_parents. destruct (N.ltb_spec (p_round n) q) as [L|L]; [|exact P]. pcb.
    assert (Bd : forall m, l_mem (p_db n) KP = Some (VH m) -> h_epoch m = p_epoch n -> h_round m <= q + 1).
    { intros m H1 H2. destruct (Hq m) as [K|K]; [apply last_get; unfold l_get; rewrite H1; reflexivity|exact H2|lia|exact K]. }
    destruct P as [G M O S T U B]. constructor; auto.
    + destruct (p_task n); cbn in *; auto. destruct T as (T1 & T2 & T3). split; [exact T1|]. split; [exact T2|].
      intros E. destruct (T3 E) as [K|K]; [left; lia|right; exact K].
    + intros m H1 H2. specialize (Bd m H1 H2). lia.
  - (* propose *)
    unfold ev_propose. destruct (p_task n) eqn:Et; try (rewrite Et; exact P).
    set (r := N.max (p_round n + 1) (p_prim n + 1)). assert (Er : r = N.max (p_round n) (p_prim n) + 1) by (unfold r; lia).
    assert (P1 : PI (p_epoch n) r r (p_db n) PIdle (p_sent n)) by (eapply pi_mx; [|exact P]; lia).
    destruct read_ok; cbn [negb]; pcb.
    2:{ eapply pi_task_set; [exact P1|exact I|intros x []]. }
    destruct (last_proposed (p_db n)) as [h|] eqn:El.
    + destruct (N.eqb_spec (h_round h) r) as [E1|E1]; [destruct (N.eqb_spec (h_epoch h) (p_epoch n)) as [E2|E2]|]; cbn [andb]; pcb.
      * apply pi_repropose; assumption.
      * eapply pi_propose; [exact P|exact Er|]. intros h' Hl H1 H2. congruence.
      * eapply pi_propose; [exact P|exact Er|]. intros h' Hl H1 H2. congruence.
    + pcb. eapply pi_propose; [exact P|exact Er|]. intros h' Hl. congruence.
  - (* re-propose *)
    unfold ev_repropose. destruct (p_task n) eqn:Et; try (rewrite Et; exact P).
    destruct (last_proposed (p_db n)) as [h|] eqn:El; [|rewrite Et; exact P]. pcb. apply pi_repropose; assumption.
  - (* store *)
    unfold ev_store. destruct (p_task n) eqn:Et; try (rewrite Et; exact P).
    destruct read_ok; cbn [negb]; [|pcb; eapply pi_task_set; [exact P|exact I|intros x []]].
    destruct (last_proposed (p_db n)) as [l|] eqn:El.
    + destruct (negb (h_epoch l =? h_epoch h) || (h_round l <=? h_round h)) eqn:Es.
      * destruct write_ok; pcb; [apply pi_store; assumption|eapply pi_task_set; [exact P|exact I|intros x []]].
      * pcb. eapply pi_skip; eassumption.
    + destruct write_ok; pcb; [apply pi_store; assumption|eapply pi_task_set; [exact P|exact I|intros x []]].
  - unfold ev_ppersist. destruct (p_task n) eqn:Et; try (rewrite Et; exact P). pcb. apply pi_barrier; assumption.
  - (* ack *)
    unfold ev_pack. destruct (p_task n) eqn:Et; try (rewrite Et; exact P). destruct (packed n b true) eqn:Ea; pcb.
    + pose proof (pi_task _ _ _ _ _ _ P) as (T1 & T2 & T3). eapply pi_task_set; [exact P| |].
      * cbn. split; [exact T1|]. split; [|auto]. eapply ack_settles; [apply Z|exact T3|apply packed_in; exact Ea].
      * intros x [<-|[]]. unfold pool. apply in_app_iff. right. apply in_app_iff. left. left. reflexivity.
    + destruct (packed n b false); pcb; [eapply pi_task_set; [exact P|exact I|intros x []]|rewrite Et; exact P].
  - unfold ev_send. destruct (p_task n) eqn:Et; try (rewrite Et; exact P). pcb. apply pi_sent_add. exact P.
  - unfold ev_recv. destruct (p_chan n); exact P.
  - unfold ev_clock. destruct (nth_error (p_certs n) i) as [[]|]; try exact P.
    destruct (existsb holds_lock (p_certs n)); [exact P|].
    destruct (stored_cert (p_db n) (h_digest h)); [exact P|]. destruct (h_epoch h =? p_epoch n); exact P.
  - unfold ev_cert. destruct (nth_error (p_certs n) i) as [[]|]; try exact P. destruct write_ok; [|exact P]. pcb.
    eapply pi_quiet; [|exact P]. apply quietk_do; [exact Bs|reflexivity].
  - unfold ev_cpersist. destruct (nth_error (p_certs n) i) as [[]|]; try exact P. pcb.
    eapply pi_quiet; [|exact P]. apply quietk_send; [exact Bs|reflexivity].
  - unfold ev_cack. destruct (nth_error (p_certs n) i) as [[]|]; try exact P.
    destruct (packed n b true); [exact P|]. destruct (packed n b false); exact P.
  - exact P.
  - pcb. eapply pi_quiet; [|exact P]. apply quietk_run. exact Bs.
  - destruct (other_pop o) eqn:Eo; [|exact P]. pcb. eapply pi_quiet; [|exact P]. apply quietk_do; [exact Bs|apply other_kp; exact Eo].
  - destruct (other_pmsg m) eqn:Em; [|exact P]. pcb. eapply pi_quiet; [|exact P].
    apply quietk_send; [exact Bs|apply other_quiet; exact Em].
  - pcb. eapply pi_quiet; [|exact P]. apply quietk_send; [exact Bs|reflexivity].
  - (* crash *)
    cbn in Hq. subst read_ok. pcb.
    apply (pi_rebuild (p_epoch n) (l_crash (p_db n)) prim PIdle (p_sent n) (match l_disk (p_db n) KP with Some (VH m) => h_round m | _ => 0 end) 0).
    assert (F : l_full (p_db n) = true) by apply Bs.
    destruct P as [G M O S T U B]. inversion G as [|? ? Gm Gc]; subst.
    assert (Gd : pgood (p_epoch n) (l_disk (p_db n) KP)) by (inversion Gc; assumption).
    constructor; rewrite ?chain_crash_eq, ?(mem_crash _ _ F).
    + constructor; [exact Gd|]. repeat constructor. exact Gd.
    + constructor; [|constructor]. unfold pord. destruct (l_disk (p_db n) KP) as [[v|]|]; auto. intros E. exists v. auto.
    + repeat constructor.
    + eapply Forall_impl; [|exact S]. intros h [S1 S2]. split; [exact S1|]. apply crash_settled; [exact F|exact S2].
    + exact I.
    + eapply huniq_incl; [|exact U]. unfold pool. rewrite chain_crash_eq, (mem_crash _ _ F). cbn [task_hdr app].
      apply incl_app; [apply incl_appl, incl_refl|]. apply incl_appr, incl_appr. intros x Hx. apply in_hdrs in Hx. apply in_hdrs.
      right. unfold chain. left. destruct Hx as [Hx|[Hx|[]]]; exact Hx.
    + intros m -> E. lia.
  - cbn in Hq. subst read_ok. pcb. eapply pi_rebuild. exact P.
  - (* next epoch *)
    cbn in Hq. subst read_ok. destruct (N.ltb_spec (p_epoch n) e) as [L|]; [|exact P]. pcb.
    pose proof (pi_epoch _ e _ _ 0 0 _ _ _ L P) as P1.
    assert (Q2 : forall d, base d -> quietk KP d (l_do (Clr PROPC) d)) by (intros d Bd; apply quietk_do; [exact Bd|reflexivity]).
    assert (P2 : PI e 0 0 (l_do (Clr LASTP) (p_db n)) PIdle (p_sent n)).
    { apply pi_clear; [exact Bs|exact P1| | |lia].
      - pose proof (pi_good _ _ _ _ _ _ P) as G. rewrite Forall_forall in G. intros x Hx. specialize (G x Hx). unfold pgood in *.
        destruct x as [[v|]|]; auto. lia.
      - intros h Hh. pose proof (pi_sent _ _ _ _ _ _ P) as S. rewrite Forall_forall in S. destruct (S h Hh). lia. }
    destruct clear1, clear2; eapply pi_rebuild.
    + eapply pi_quiet; [apply Q2; apply (base_step (p_db n) (EWrite (Clr LASTP)) Bs)|exact P2].
    + exact P2.
    + eapply pi_quiet; [apply Q2; exact Bs|exact P1].
    + exact P1.
Qed.

Lemma prun_app n a b : prun n (a ++ b) = prun (prun n a) b.
Proof. apply fold_left_app. Qed.
Lemma prun_pinv evs : forall n, Inv0 (p_db n) (p_next n) -> PInv n -> along quiet_start n evs ->
  Inv0 (p_db (prun n evs)) (p_next (prun n evs)) /\ PInv (prun n evs).
Proof.
  induction evs as [|e evs IH]; intros n Z P H; [auto|]. destruct H as [H1 H2]. cbn. apply IH; [|apply pstep_pinv|]; auto.
  apply inv0_step. exact Z.
Qed.

(* a header of the node's epoch is never of an earlier round than one handed out before *)
Lemma sent_step n ev : Inv0 (p_db n) (p_next n) -> PInv n -> p_sent (pstep n ev) = p_sent n \/
  exists h, p_sent (pstep n ev) = p_sent n ++ [h] /\
    forall x, In x (p_sent n) -> h_epoch x = p_epoch n -> h_epoch h = p_epoch n -> h_round x <= h_round h.
Proof.
  intros Z P. destruct ev; try (left; cbn [pstep]; unfold ev_parents, ev_propose, ev_repropose, ev_store, ev_ppersist, ev_pack, ev_recv, ev_clock, ev_cert,
    ev_cpersist, ev_cack; repeat match goal with |- context [match ?x with _ => _ end] => destruct x end; reflexivity).
  cbn [pstep]. unfold ev_send. destruct (p_task n) eqn:Et; auto. right. exists h. split; [reflexivity|]. intros x Hx E1 E2.
  unfold PInv in P. rewrite Et in P. pose proof (pi_task _ _ _ _ _ _ P) as (_ & _ & T). specialize (T E2).
  pose proof (pi_sent _ _ _ _ _ _ P) as S. rewrite Forall_forall in S. destruct (S x Hx) as [_ [S1 _]]. rewrite T in S1. cbn in S1.
  destruct (S1 E1) as (w & W1 & W2 & W3). injection W1 as <-. destruct W3 as [W3| ->]; lia.
Qed.
