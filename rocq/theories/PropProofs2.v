(* C31: the invariant of the records of the node's own certificates. *)
From Verif Require Import Util Types LdbModel LdbProofs LdbHist LdbChain VoteModel PropModel PropSpec PropProofs1.
Local Open Scope N_scope.

Definition cep (c : cert) : N := h_epoch (c_header c).
Definition cdig (c : cert) : N := h_digest (c_header c).
(* "y may legitimately follow x": a record stays until its epoch is over *)
Definition cord (e : N) (x y : option pval) : Prop :=
  match x with Some (VC c) => y = Some (VC c) \/ (y = None /\ cep c < e) | _ => True end.
Definition ccov (e : N) (c : cert) : option pval -> Prop := cord e (Some (VC c)).
Definition cgood (e g : N) (s : list header) (x : option pval) : Prop :=
  match x with Some (VC c) => cdig c = g /\ In (c_header c) s /\ cep c <= e | Some (VH _) => False | None => True end.
Definition ctask_ok (e : N) (d : ldb pval) (s : list header) (t : ctask) : Prop :=
  match t with
  | CWant h => In h s
  | CVoting h => In h s /\ h_epoch h = e /\ l_mem d (KC (h_digest h)) = None
  | CPersist c => In (c_header c) s /\ cep c = e /\ l_mem d (KC (cdig c)) = Some (VC c)
  | CWait c b => In (c_header c) s /\ cep c = e /\ l_mem d (KC (cdig c)) = Some (VC c) /\ waiting (KC (cdig c)) (ccov e c) b d
  end.
(* headers of the guard record and the pending task are not of a later epoch *)
Definition hle (e : N) (x : option pval) : Prop := match x with Some (VH v) => h_epoch v <= e | _ => True end.

Record CI (e : N) (d : ldb pval) (t : ptask) (ch : list header) (ts : list ctask) (s : list header) (ext rel : list cert) : Prop := mkCI {
  ci_hle : Forall (hle e) (l_mem d KP :: chain KP d);
  ci_thle : Forall (fun h => h_epoch h <= e) (task_hdr t);
  ci_shle : Forall (fun h => h_epoch h <= e) s;
  ci_chan : incl ch s;
  ci_good : forall g, Forall (cgood e g s) (l_mem d (KC g) :: chain (KC g) d);
  ci_mem : forall g, Forall (fun x => cord e x (l_mem d (KC g))) (chain (KC g) d);
  ci_ord : forall g, ForallOrdPairs (cord e) (chain (KC g) d);
  ci_lock : (length (filter holds_lock ts) <= 1)%nat;
  ci_tasks : Forall (ctask_ok e d s) ts;
  ci_rel : Forall (fun c => settled (KC (cdig c)) (ccov e c) d) rel;
  ci_ext : Forall (fun c => In (c_header c) s /\ cep c <= e) ext;
  ci_relext : incl rel ext
}.
Definition CInv (n : pnode) : Prop :=
  CI (p_epoch n) (p_db n) (p_task n) (p_chan n) (p_certs n) (p_sent n) (p_ext n) (p_rel n).

Lemma filter_replace {A} (f : A -> bool) i x l y : nth_error l i = Some y ->
  (length (filter f (replace i x l)) + (if f y then 1 else 0) = length (filter f l) + (if f x then 1 else 0))%nat.
Proof.
  revert i. induction l as [|z l IH]; intros [|i] H; cbn in *; try discriminate.
  - injection H as ->. destruct (f y), (f x); cbn; lia.
  - specialize (IH i H). destruct (f z); cbn; lia.
Qed.
Lemma filter_drop {A} (f : A -> bool) i l : (length (filter f (drop_at i l)) <= length (filter f l))%nat.
Proof.
  revert i. induction l as [|z l IH]; intros [|i]; cbn; auto.
  - destruct (f z); cbn; lia.
  - specialize (IH i). destruct (f z); cbn; lia.
Qed.
Lemma filter_none {A} (f : A -> bool) l : existsb f l = false -> length (filter f l) = 0%nat.
Proof. induction l as [|x l IH]; cbn; [auto|]. destruct (f x); cbn; [discriminate|auto]. Qed.
Lemma in_replace {A} i (x : A) l y : In y (replace i x l) -> y = x \/ In y (drop_at i l).
Proof.
  revert i. induction l as [|z l IH]; intros [|i]; cbn; try tauto.
  - intros [->|H]; auto.
  - intros [->|H]; [auto|]. destruct (IH i H); auto.
Qed.
Lemma in_drop {A} i (l : list A) y : In y (drop_at i l) -> In y l.
Proof. revert i. induction l as [|z l IH]; intros [|i]; cbn; auto. intros [->|H]; eauto. Qed.
Lemma drop_count {A} (f : A -> bool) i l y : nth_error l i = Some y ->
  (length (filter f l) = length (filter f (drop_at i l)) + (if f y then 1 else 0))%nat.
Proof.
  revert i. induction l as [|z l IH]; intros [|i] H; cbn in *; try discriminate.
  - injection H as ->. destruct (f y); cbn; lia.
  - specialize (IH i H). destruct (f z); cbn; lia.
Qed.
(* nobody else holds the lock *)
Lemma lock_alone i ts t : nth_error ts i = Some t -> holds_lock t = true -> (length (filter holds_lock ts) <= 1)%nat ->
  forall u, In u (drop_at i ts) -> holds_lock u = false.
Proof.
  intros Hn Ht L u Hu. pose proof (drop_count holds_lock i ts t Hn) as C. rewrite Ht in C.
  destruct (holds_lock u) eqn:E; [|reflexivity].
  assert (In u (filter holds_lock (drop_at i ts))) by (apply filter_In; auto).
  destruct (filter holds_lock (drop_at i ts)); [contradiction|cbn in C; lia].
Qed.

Definition quiets (d d' : ldb pval) : Prop := forall g, quietk (KC g) d d'.
Lemma ctask_quiet e d d' s t : quiets d d' -> ctask_ok e d s t -> ctask_ok e d' s t.
Proof.
  intros Q. destruct t; cbn; auto.
  - rewrite (qk_mem _ _ _ (Q _)). auto.
  - rewrite (qk_mem _ _ _ (Q _)). auto.
  - rewrite (qk_mem _ _ _ (Q _)). intros (H1 & H2 & H3 & H4). repeat (split; [assumption|]). apply (qk_wait _ _ _ (Q _)). exact H4.
Qed.
Lemma ci_quiet e d d' t ch ts s ext rel : quiets d d' -> Forall (hle e) (l_mem d' KP :: chain KP d') ->
  CI e d t ch ts s ext rel -> CI e d' t ch ts s ext rel.
Proof.
  intros Q H C. destruct C. constructor; auto.
  - intros g. rewrite (qk_mem _ _ _ (Q g)). pose proof (ci_good0 g) as G. inversion G; subst. constructor; [assumption|].
    eapply subl_Forall; [apply (qk_chain _ _ _ (Q g))|assumption].
  - intros g. rewrite (qk_mem _ _ _ (Q g)). eapply subl_Forall; [apply (qk_chain _ _ _ (Q g))|apply ci_mem0].
  - intros g. eapply subl_FOP; [apply (qk_chain _ _ _ (Q g))|apply ci_ord0].
  - eapply Forall_impl; [|exact ci_tasks0]. intros u. apply ctask_quiet. exact Q.
  - eapply Forall_impl; [|exact ci_rel0]. intros c Hc. eapply quietk_settled; [apply Q|exact Hc].
Qed.
Lemma hle_quiet e d d' : quietk KP d d' -> Forall (hle e) (l_mem d KP :: chain KP d) -> Forall (hle e) (l_mem d' KP :: chain KP d').
Proof.
  intros Q H. inversion H; subst. rewrite (qk_mem _ _ _ Q). constructor; [assumption|].
  eapply subl_Forall; [apply (qk_chain _ _ _ Q)|assumption].
Qed.
Lemma ci_task e d t t' ch ts s ext rel : Forall (fun h => h_epoch h <= e) (task_hdr t') ->
  CI e d t ch ts s ext rel -> CI e d t' ch ts s ext rel.
Proof. intros H C. destruct C. constructor; auto. Qed.
Lemma ci_certs e d t ch ts ts' s ext rel : (length (filter holds_lock ts') <= 1)%nat -> Forall (ctask_ok e d s) ts' ->
  CI e d t ch ts s ext rel -> CI e d t ch ts' s ext rel.
Proof. intros H1 H2 C. destruct C. constructor; auto. Qed.
Lemma ci_drop e d t ch ts i s ext rel : CI e d t ch ts s ext rel -> CI e d t ch (drop_at i ts) s ext rel.
Proof.
  intros C. eapply ci_certs; [| |exact C].
  - etransitivity; [apply filter_drop|apply (ci_lock _ _ _ _ _ _ _ _ C)].
  - pose proof (ci_tasks _ _ _ _ _ _ _ _ C) as T. rewrite Forall_forall in *. intros u Hu. apply T. eapply in_drop. exact Hu.
Qed.
Lemma ci_replace e d t ch ts i u u' s ext rel : nth_error ts i = Some u -> CI e d t ch ts s ext rel ->
  (length (filter holds_lock (replace i u' ts)) <= 1)%nat -> ctask_ok e d s u' -> CI e d t ch (replace i u' ts) s ext rel.
Proof.
  intros Hn C L H. eapply ci_certs; [exact L| |exact C]. pose proof (ci_tasks _ _ _ _ _ _ _ _ C) as T.
  rewrite Forall_forall in *. intros x Hx. apply in_replace in Hx as [->|Hx]; [exact H|]. apply T. eapply in_drop. exact Hx.
Qed.

Lemma get_hle e d h : Forall (hle e) (l_mem d KP :: chain KP d) -> last_proposed d = Some h -> h_epoch h <= e.
Proof.
  intros H L. apply last_get in L. rewrite Forall_forall in H.
  assert (Hin : In (Some (VH h)) (l_mem d KP :: chain KP d)).
  { destruct (get_or d) as [[_ E]|E]; rewrite E in L; [right; left; exact L|left; exact L]. }
  apply (H _ Hin).
Qed.
Lemma hle_store e d h : h_epoch h <= e -> Forall (hle e) (l_mem d KP :: chain KP d) ->
  Forall (hle e) (l_mem (l_do (Ins KP (VH h)) d) KP :: chain KP (l_do (Ins KP (VH h)) d)).
Proof.
  intros L H. assert (Mem : l_mem (l_do (Ins KP (VH h)) d) KP = Some (VH h)) by reflexivity.
  assert (Ch : chain KP (l_do (Ins KP (VH h)) d) = chain KP d ++ [Some (VH h)]) by (rewrite chain_do; reflexivity).
  rewrite Mem, Ch. inversion H; subst. constructor; [exact L|]. apply Forall_app. split; [assumption|]. repeat constructor. exact L.
Qed.
Lemma get_kc d g : l_mem d (KC g) = None /\ l_get d (KC g) = l_disk (V:=pval) d (KC g) \/ l_get d (KC g) = l_mem d (KC g).
Proof. unfold l_get. destruct (l_mem d (KC g)); auto. Qed.
Lemma stored_get d g c : stored_cert d g = Some c <-> l_get d (KC g) = Some (VC c).
Proof. unfold stored_cert. destruct (l_get d (KC g)) as [[v|v]|]; split; intros H; try discriminate; injection H as ->; reflexivity. Qed.
Lemma stored_good e d t ch ts s ext rel g c : CI e d t ch ts s ext rel -> stored_cert d g = Some c -> cgood e g s (Some (VC c)).
Proof.
  intros C H. apply stored_get in H. pose proof (ci_good _ _ _ _ _ _ _ _ C g) as G. rewrite Forall_forall in G.
  apply G. destruct (get_kc d g) as [[_ E]|E]; rewrite E in H; [right; left; exact H|left; exact H].
Qed.
(* a record on disk is settled *)
Lemma disk_settled e d t ch ts s ext rel g c : CI e d t ch ts s ext rel -> l_disk d (KC g) = Some (VC c) ->
  settled (KC g) (ccov e c) d.
Proof.
  intros C H. apply settled_chain. pose proof (ci_mem _ _ _ _ _ _ _ _ C g) as M. pose proof (ci_ord _ _ _ _ _ _ _ _ C g) as O.
  unfold chain in *. rewrite H in *. inversion M; subst. inversion O; subst. split; [assumption|]. constructor; [left; reflexivity|assumption].
Qed.
Lemma none_no_record e d t ch ts s ext rel h : CI e d t ch ts s ext rel -> coll_free s -> In h s -> h_epoch h = e ->
  l_mem d (KC (h_digest h)) = None -> forall x, In x (chain (KC (h_digest h)) d) -> x = None.
Proof.
  intros C F Hs He Hm x Hx. pose proof (ci_good _ _ _ _ _ _ _ _ C (h_digest h)) as G. rewrite Forall_forall in G.
  pose proof (ci_mem _ _ _ _ _ _ _ _ C (h_digest h)) as M. rewrite Forall_forall in M.
  specialize (G x (or_intror Hx)). specialize (M x Hx). rewrite Hm in M. destruct x as [[v|c]|]; cbn in *; [contradiction| |reflexivity].
  exfalso. destruct M as [M|[_ M]]; [discriminate|]. destruct G as (G1 & G2 & G3).
  assert (c_header c = h) by (apply F; auto). subst h. unfold cep in *. lia.
Qed.

(* writing the record of a fresh certificate *)
Lemma ci_insert e d t ch ts i h st sg s ext rel : base d -> coll_free s -> CI e d t ch ts s ext rel ->
  nth_error ts i = Some (CVoting h) ->
  CI e (l_do (Ins (KC (h_digest h)) (VC (mkCert h st sg))) d) t ch (replace i (CPersist (mkCert h st sg)) ts) s ext rel.
Proof.
  intros Bs F C Hn. set (c := mkCert h st sg). set (o := Ins (KC (h_digest h)) (VC c)).
  pose proof (ci_tasks _ _ _ _ _ _ _ _ C) as T. rewrite Forall_forall in T.
  destruct (T _ (nth_error_In _ _ Hn)) as (Hs & He & Hm).
  pose proof (none_no_record _ _ _ _ _ _ _ _ h C F Hs He Hm) as NR.
  assert (Eff : forall g, effect (KC g) o = if g =? h_digest h then Some (Some (VC c)) else None).
  { intros g. unfold effect, o. rewrite kc_inj. reflexivity. }
  assert (Mem : forall g, l_mem (l_do o d) (KC g) = if g =? h_digest h then Some (VC c) else l_mem d (KC g)).
  { intros g. unfold l_do. cbn [l_mem]. rewrite apply_effect, Eff. destruct (g =? h_digest h); reflexivity. }
  assert (Ch : forall g, chain (KC g) (l_do o d) = chain (KC g) d ++ if g =? h_digest h then [Some (VC c)] else []).
  { intros g. rewrite chain_do. unfold eff. cbn [flat_map]. rewrite Eff. destruct (g =? h_digest h); reflexivity. }
  assert (Ok : forall g (P : option pval -> Prop), (g = h_digest h -> False) -> op_ok (KC g) P o).
  { intros g P H. unfold op_ok. rewrite Eff. destruct (N.eqb_spec g (h_digest h)); [contradiction|exact I]. }
  assert (Gc : cgood e (h_digest h) s (Some (VC c))).
  { unfold cgood, cdig, cep. cbn [c c_header]. split; [reflexivity|]. split; [exact Hs|]. lia. }
  constructor.
  - eapply hle_quiet; [|apply (ci_hle _ _ _ _ _ _ _ _ C)]. apply quietk_do; [exact Bs|reflexivity].
  - apply C.
  - apply C.
  - apply C.
  - intros g. rewrite Mem, Ch. pose proof (ci_good _ _ _ _ _ _ _ _ C g) as G. inversion G; subst.
    destruct (N.eqb_spec g (h_digest h)) as [->|].
    + constructor; [exact Gc|]. apply Forall_app. split; [assumption|]. constructor; [exact Gc|constructor].
    + rewrite app_nil_r. exact G.
  - intros g. rewrite Mem, Ch. destruct (N.eqb_spec g (h_digest h)) as [->|].
    + apply Forall_app. split; [|constructor; [left; reflexivity|constructor]].
      apply Forall_forall. intros x Hx. rewrite (NR x Hx). exact I.
    + rewrite app_nil_r. apply (ci_mem _ _ _ _ _ _ _ _ C).
  - intros g. rewrite Ch. destruct (N.eqb_spec g (h_digest h)) as [->|]; [|rewrite app_nil_r; apply (ci_ord _ _ _ _ _ _ _ _ C)].
    apply FOP_snoc; [apply (ci_ord _ _ _ _ _ _ _ _ C)|]. apply Forall_forall. intros x Hx. rewrite (NR x Hx). exact I.
  - pose proof (filter_replace holds_lock i (CPersist c) ts (CVoting h) Hn) as L. pose proof (ci_lock _ _ _ _ _ _ _ _ C). cbn in L. lia.
  - apply Forall_forall. intros u Hu. apply in_replace in Hu as [->|Hu].
    + cbn [ctask_ok]. unfold cep, cdig. cbn [c c_header]. split; [exact Hs|]. split; [exact He|]. rewrite Mem, N.eqb_refl. reflexivity.
    + pose proof (lock_alone i ts (CVoting h) Hn eq_refl (ci_lock _ _ _ _ _ _ _ _ C) u Hu) as NL.
      specialize (T u (in_drop _ _ _ Hu)). destruct u as [h'|h'|c'|c' b']; cbn [ctask_ok holds_lock] in T, NL |- *; [exact T|discriminate| |].
      * destruct T as (T1 & T2 & T3). split; [exact T1|]. split; [exact T2|]. rewrite Mem.
        destruct (N.eqb_spec (cdig c') (h_digest h)) as [E|]; [|exact T3]. rewrite E in T3. congruence.
      * destruct T as (T1 & T2 & T3 & T4). split; [exact T1|]. split; [exact T2|].
        assert (cdig c' <> h_digest h) by (intros E; rewrite E in T3; congruence).
        split; [rewrite Mem; destruct (N.eqb_spec (cdig c') (h_digest h)); [contradiction|exact T3]|].
        apply do_waiting; [apply Ok; assumption|exact T4].
  - pose proof (ci_rel _ _ _ _ _ _ _ _ C) as R. rewrite Forall_forall in *. intros x Hx. specialize (R x Hx).
    apply do_settled; [|exact R]. apply Ok. intros E. apply settled_chain in R as [R1 R2]. rewrite E in R1, R2. rewrite Hm in R1.
    destruct R1 as [R1|[_ R1]]; [discriminate|].
    pose proof (ci_ext _ _ _ _ _ _ _ _ C) as X. rewrite Forall_forall in X. destruct (X x (ci_relext _ _ _ _ _ _ _ _ C x Hx)) as [X1 _].
    assert (c_header x = h) by (apply F; auto). unfold cep in R1. subst h. lia.
  - apply C.
  - apply C.
Qed.

Lemma ci_epoch e e' d t ch ts s ext rel : e <= e' -> CI e d t ch ts s ext rel -> CI e' d PIdle [] [] s ext rel.
Proof.
  intros L C. destruct C as [c1 c2 c3 c4 c5 c6 c7 c8 c9 c10 c11 c12].
  assert (R : forall x y, cord e x y -> cord e' x y).
  { intros x y. unfold cord. destruct x as [[|c]|]; auto. intros [H|[H1 H2]]; [auto|]. right. split; [exact H1|lia]. }
  constructor.
  - eapply Forall_impl; [|exact c1]. intros x. unfold hle. destruct x as [[|]|]; auto. lia.
  - constructor.
  - eapply Forall_impl; [|exact c3]. cbn. intros. lia.
  - intros x [].
  - intros g. eapply Forall_impl; [|apply c5]. intros x. unfold cgood. destruct x as [[|]|]; auto. intros (H1 & H2 & H3). repeat split; auto. lia.
  - intros g. eapply Forall_impl; [|apply c6]. intros x. apply R.
  - intros g. eapply FOP_impl; [|apply c7]. exact R.
  - cbn. lia.
  - constructor.
  - eapply Forall_impl; [|exact c10]. intros c Hc. apply settled_chain in Hc as [H1 H2]. apply settled_chain. split; [apply R; exact H1|].
    eapply Forall_impl; [|exact H2]. intros x. apply R.
  - eapply Forall_impl; [|exact c11]. intros c [H1 H2]. split; [exact H1|lia].
  - exact c12.
Qed.
Lemma ci_clearc e d s ext rel : base d -> (forall h, In h s -> h_epoch h < e) ->
  CI e d PIdle [] [] s ext rel -> CI e (l_do (Clr PROPC) d) PIdle [] [] s ext rel.
Proof.
  intros Bs Old [c1 c2 c3 c4 c5 c6 c7 c8 c9 c10 c11 c12].
  assert (Mem : forall g, l_mem (l_do (Clr PROPC) d) (KC g) = None) by reflexivity.
  assert (Ch : forall g, chain (KC g) (l_do (Clr PROPC) d) = chain (KC g) d ++ [None]) by (intros g; rewrite chain_do; reflexivity).
  assert (V : forall g x, cgood e g s x -> cord e x None).
  { intros g x. unfold cgood, cord. destruct x as [[|c]|]; auto. intros (_ & H & _). right. split; [reflexivity|]. apply Old. exact H. }
  constructor; auto.
  - eapply hle_quiet; [|exact c1]. apply quietk_do; [exact Bs|reflexivity].
  - intros g. rewrite Mem, Ch. specialize (c5 g). inversion c5; subst. constructor; [exact I|]. apply Forall_app. split; [assumption|repeat constructor].
  - intros g. rewrite Mem, Ch. specialize (c5 g). inversion c5; subst. apply Forall_app. split; [|repeat constructor].
    eapply Forall_impl; [|eassumption]. intros x. apply V.
  - intros g. rewrite Ch. apply FOP_snoc; [apply c7|]. specialize (c5 g). inversion c5; subst. eapply Forall_impl; [|eassumption]. intros x. apply V.
  - apply Forall_forall. intros c Hc. rewrite Forall_forall in c10, c11. apply do_settled; [|apply c10; exact Hc].
    unfold op_ok. change (effect (KC (cdig c)) (Clr PROPC)) with (Some (@None pval)).
    destruct (c11 c (c12 c Hc)) as [H1 _]. right. split; [reflexivity|]. apply Old. exact H1.
Qed.
Lemma ci_clearp e d s ext rel : base d -> CI e d PIdle [] [] s ext rel -> CI e (l_do (Clr LASTP) d) PIdle [] [] s ext rel.
Proof.
  intros Bs C. eapply ci_quiet; [|  |exact C].
  - intros g. apply quietk_do; [exact Bs|reflexivity].
  - assert (Mem : l_mem (l_do (Clr LASTP) d) KP = None) by reflexivity.
    assert (Ch : chain KP (l_do (Clr LASTP) d) = chain KP d ++ [None]) by (rewrite chain_do; reflexivity).
    rewrite Mem, Ch. pose proof (ci_hle _ _ _ _ _ _ _ _ C) as H. inversion H; subst. constructor; [exact I|].
    apply Forall_app. split; [assumption|repeat constructor].
Qed.
Lemma ci_crash e d t ch ts s ext rel : base d -> CI e d t ch ts s ext rel -> CI e (l_crash d) PIdle [] [] s ext rel.
Proof.
  intros Bs [c1 c2 c3 c4 c5 c6 c7 c8 c9 c10 c11 c12]. assert (F : l_full d = true) by apply Bs.
  constructor; rewrite ?chain_crash_eq, ?(mem_crash _ _ F).
  - inversion c1 as [|? ? _ G]; subst. inversion G; subst. repeat constructor; assumption.
  - constructor.
  - exact c3.
  - intros x [].
  - intros g. rewrite chain_crash_eq, (mem_crash _ _ F). specialize (c5 g). inversion c5 as [|? ? _ G]; subst. inversion G; subst. repeat constructor; assumption.
  - intros g. rewrite chain_crash_eq, (mem_crash _ _ F). constructor; [|constructor]. unfold cord. destruct (l_disk d (KC g)) as [[|]|]; auto.
  - intros g. rewrite chain_crash_eq. repeat constructor.
  - cbn. lia.
  - constructor.
  - eapply Forall_impl; [|exact c10]. intros c Hc. apply crash_settled; assumption.
  - exact c11.
  - exact c12.
Qed.

Lemma sent_mono n e : incl (p_sent n) (p_sent (pstep n e)).
Proof.
  destruct e; cbn [pstep]; unfold ev_parents, ev_propose, ev_repropose, ev_store, ev_ppersist, ev_pack, ev_send, ev_recv, ev_clock, ev_cert,
    ev_cpersist, ev_cack;
  repeat match goal with |- context [match ?x with _ => _ end] => destruct x end; try apply incl_refl.
  pcb. apply incl_appl, incl_refl.
Qed.
Ltac ccb := cbn [set_rounds set_task set_pdb set_certs p_barrier add_sent add_ext p_epoch p_round p_prim p_db p_task p_sent p_next rebuild
                 p_chan p_certs p_ext p_rel].
Lemma cstep_cinv n e : Inv0 (p_db n) (p_next n) -> coll_free (p_sent n) -> CInv n -> CInv (pstep n e).
Proof.
  intros Z F C. pose proof (z_base _ _ Z) as Bs. unfold CInv in *.
  pose proof (ci_hle _ _ _ _ _ _ _ _ C) as Hle. pose proof (ci_tasks _ _ _ _ _ _ _ _ C) as T. rewrite Forall_forall in T.
  destruct e; cbn [pstep].
  - unfold ev_parents. destruct (p_round n <? q); exact C.
  - unfold ev_propose. destruct (p_task n) eqn:Et; try (rewrite Et; exact C). destruct read_ok; cbn [negb]; ccb.
    2:{ eapply ci_task; [constructor|exact C]. }
    destruct (last_proposed (p_db n)) as [h|] eqn:El.
    + destruct (_ && _); ccb; (eapply ci_task; [|exact C]); cbn; repeat constructor; cbn; [eapply get_hle; eassumption|lia].
    + ccb. eapply ci_task; [|exact C]. cbn. repeat constructor. cbn. lia.
  - unfold ev_repropose. destruct (p_task n) eqn:Et; try (rewrite Et; exact C).
    destruct (last_proposed (p_db n)) as [h|] eqn:El; [|rewrite Et; exact C]. ccb. eapply ci_task; [|exact C].
    cbn. repeat constructor. eapply get_hle; eassumption.
  - unfold ev_store. destruct (p_task n) eqn:Et; try (rewrite Et; exact C).
    destruct read_ok; cbn [negb]; [|ccb; eapply ci_task; [constructor|exact C]].
    assert (Hh : h_epoch h <= p_epoch n) by (pose proof (ci_thle _ _ _ _ _ _ _ _ C) as H; inversion H; assumption).
    destruct (match last_proposed (p_db n) with Some _ => _ | None => _ end).
    + destruct write_ok; ccb; [|eapply ci_task; [constructor|exact C]].
      eapply ci_task; [cbn; repeat constructor; exact Hh|]. eapply ci_quiet; [| |exact C].
      * intros g. apply quietk_do; [exact Bs|reflexivity].
      * apply hle_store; assumption.
    + ccb. eapply ci_task; [|exact C]. cbn. repeat constructor. exact Hh.
  - unfold ev_ppersist. destruct (p_task n) eqn:Et; try (rewrite Et; exact C). ccb.
    eapply ci_task; [cbn; exact (ci_thle _ _ _ _ _ _ _ _ C)|]. eapply ci_quiet; [| |exact C].
    + intros g. apply quietk_send; [exact Bs|reflexivity].
    + eapply hle_quiet; [|exact Hle]. apply quietk_send; [exact Bs|reflexivity].
  - unfold ev_pack. destruct (p_task n) eqn:Et; try (rewrite Et; exact C). destruct (packed n b true); ccb.
    + eapply ci_task; [cbn; exact (ci_thle _ _ _ _ _ _ _ _ C)|exact C].
    + destruct (packed n b false); ccb; [eapply ci_task; [constructor|exact C]|rewrite Et; exact C].
  - unfold ev_send. destruct (p_task n) eqn:Et; try (rewrite Et; exact C). ccb.
    assert (Hh : h_epoch h <= p_epoch n) by (pose proof (ci_thle _ _ _ _ _ _ _ _ C) as H; inversion H; assumption).
    destruct C as [c1 c2 c3 c4 c5 c6 c7 c8 c9 c10 c11 c12]. constructor; auto.
    + constructor.
    + apply Forall_app. split; [exact c3|]. repeat constructor. exact Hh.
    + apply incl_app; [apply incl_appl; exact c4|apply incl_appr, incl_refl].
    + intros g. eapply Forall_impl; [|apply c5]. intros x. unfold cgood. destruct x as [[|]|]; auto.
      intros (H1 & H2 & H3). repeat split; auto. apply in_app_iff. auto.
    + eapply Forall_impl; [|exact c9]. intros u. destruct u; cbn; rewrite in_app_iff; tauto.
    + eapply Forall_impl; [|exact c11]. intros c [H1 H2]. split; [apply in_app_iff; auto|exact H2].
  - unfold ev_recv. destruct (p_chan n) as [|h t] eqn:Ec; [rewrite Ec; exact C|]. ccb.
    destruct C as [c1 c2 c3 c4 c5 c6 c7 c8 c9 c10 c11 c12]. constructor; auto.
    + intros x Hx. apply c4. right. exact Hx.
    + rewrite filter_app. cbn. rewrite app_nil_r. exact c8.
    + apply Forall_app. split; [exact c9|]. repeat constructor. cbn. apply c4. left. reflexivity.
  - unfold ev_clock. destruct (nth_error (p_certs n) i) as [[h| | |]|] eqn:Hn; try exact C.
    destruct (existsb holds_lock (p_certs n)) eqn:El; [exact C|].
    destruct (stored_cert (p_db n) (h_digest h)) as [c|] eqn:Es.
    + ccb. pose proof (stored_good _ _ _ _ _ _ _ _ _ _ C Es) as (G1 & G2 & G3).
      pose proof (ci_drop _ _ _ _ _ i _ _ _ C) as [c1 c2 c3 c4 c5 c6 c7 c8 c9 c10 c11 c12]. constructor; auto.
      * apply Forall_app. split; [exact c11|]. repeat constructor; assumption.
      * apply incl_appl. exact c12.
    + destruct (N.eqb_spec (h_epoch h) (p_epoch n)) as [E|]; ccb; [|apply ci_drop; exact C].
      eapply ci_replace; [exact Hn|exact C| |].
      * pose proof (filter_replace holds_lock i (CVoting h) _ _ Hn) as L. rewrite (filter_none _ _ El) in L. cbn in L. lia.
      * cbn. split; [apply (T _ (nth_error_In _ _ Hn))|]. split; [exact E|].
        unfold stored_cert, l_get in Es. pose proof (ci_good _ _ _ _ _ _ _ _ C (h_digest h)) as G. inversion G as [|? ? Gm _]; subst.
        destruct (l_mem (p_db n) (KC (h_digest h))) as [[v|v]|]; [contradiction|discriminate|reflexivity].
  - unfold ev_cert. destruct (nth_error (p_certs n) i) as [[|h| |]|] eqn:Hn; try exact C. destruct write_ok; ccb; [|apply ci_drop; exact C].
    apply ci_insert; assumption.
  - unfold ev_cpersist. destruct (nth_error (p_certs n) i) as [[| |c|]|] eqn:Hn; try exact C. ccb.
    destruct (T _ (nth_error_In _ _ Hn)) as (T1 & T2 & T3).
    eapply ci_replace; [exact Hn| | |].
    + eapply ci_quiet; [| |exact C]; [intros g; apply quietk_send; [exact Bs|reflexivity]|].
      eapply hle_quiet; [|exact Hle]. apply quietk_send; [exact Bs|reflexivity].
    + pose proof (filter_replace holds_lock i (CWait c (p_next n)) _ _ Hn) as L. pose proof (ci_lock _ _ _ _ _ _ _ _ C). cbn in L. lia.
    + cbn [ctask_ok]. split; [exact T1|]. split; [exact T2|]. split; [exact T3|]. apply barrier_waiting.
      * rewrite T3. left. reflexivity.
      * intros Fl. rewrite <- (proj2 Bs Fl), T3. left. reflexivity.
  - unfold ev_cack. destruct (nth_error (p_certs n) i) as [[| | |c b]|] eqn:Hn; try exact C.
    destruct (packed n b true) eqn:Ea; [|destruct (packed n b false); ccb; [apply ci_drop; exact C|exact C]]. ccb.
    destruct (T _ (nth_error_In _ _ Hn)) as (T1 & T2 & T3 & T4).
    assert (S : settled (KC (cdig c)) (ccov (p_epoch n) c) (p_db n)) by (eapply ack_settles; [apply Z|exact T4|apply packed_in; exact Ea]).
    pose proof (ci_drop _ _ _ _ _ i _ _ _ C) as [c1 c2 c3 c4 c5 c6 c7 c8 c9 c10 c11 c12]. constructor; auto.
    + apply Forall_app. split; [exact c10|]. constructor; [exact S|constructor].
    + apply Forall_app. split; [exact c11|]. constructor; [split; [exact T1|lia]|constructor].
    + apply incl_app; [apply incl_appl; exact c12|apply incl_appr, incl_refl].
  - ccb. apply ci_drop. exact C.
  - ccb. eapply ci_quiet; [| |exact C]; [intros g; apply quietk_run; exact Bs|].
    eapply hle_quiet; [|exact Hle]. apply quietk_run. exact Bs.
  - destruct (other_pop o) eqn:Eo; [|exact C]. ccb.
    eapply ci_quiet; [| |exact C]; [intros g; apply quietk_do; [exact Bs|apply other_kc; exact Eo]|].
    eapply hle_quiet; [|exact Hle]. apply quietk_do; [exact Bs|apply other_kp; exact Eo].
  - destruct (other_pmsg m) eqn:Em; [|exact C]. ccb. destruct (other_quiet m Em) as [Q1 Q2].
    eapply ci_quiet; [| |exact C]; [intros g; apply quietk_send; [exact Bs|exact Q1]|].
    eapply hle_quiet; [|exact Hle]. apply quietk_send; [exact Bs|exact Q1].
  - ccb. eapply ci_quiet; [| |exact C]; [intros g; apply quietk_send; [exact Bs|reflexivity]|].
    eapply hle_quiet; [|exact Hle]. apply quietk_send; [exact Bs|reflexivity].
  - ccb. eapply ci_crash; [exact Bs|exact C].
  - ccb. eapply ci_epoch; [|exact C]. lia.
  - destruct (N.ltb_spec (p_epoch n) e) as [L|]; [|exact C]. ccb.
    assert (C1 : CI e (p_db n) PIdle [] [] (p_sent n) (p_ext n) (p_rel n)) by (eapply ci_epoch; [|exact C]; lia).
    assert (Old : forall h, In h (p_sent n) -> h_epoch h < e).
    { intros h Hh. pose proof (ci_shle _ _ _ _ _ _ _ _ C) as S. rewrite Forall_forall in S. specialize (S h Hh). cbn in S. lia. }
    destruct clear1, clear2.
    + apply ci_clearc; [apply (base_step (p_db n) (EWrite (Clr LASTP)) Bs)|exact Old|]. apply ci_clearp; assumption.
    + apply ci_clearp; assumption.
    + apply ci_clearc; assumption.
    + exact C1.
Qed.

Lemma cinv_init me e prim disk : disk KP = None -> (forall g, disk (KC g) = None) -> CInv (pinit me e prim disk).
Proof.
  intros H1 H2. unfold CInv, pinit. ccb.
  assert (Ch : forall k, disk k = None -> chain k (l_open true disk) = [None]) by (intros k H; unfold chain, l_open, staged; cbn; rewrite H; reflexivity).
  assert (Mm : forall k, disk k = None -> l_mem (l_open true disk) k = None) by (intros k H; unfold l_open; cbn; exact H).
  constructor.
  - rewrite Ch, Mm by exact H1. repeat constructor.
  - constructor.
  - constructor.
  - intros x [].
  - intros g. rewrite Ch, Mm by apply H2. repeat constructor.
  - intros g. rewrite Ch, Mm by apply H2. repeat constructor.
  - intros g. rewrite Ch by apply H2. repeat constructor.
  - cbn. lia.
  - constructor.
  - constructor.
  - constructor.
  - intros x [].
Qed.
Lemma sent_mono_run evs : forall n, incl (p_sent n) (p_sent (prun n evs)).
Proof.
  induction evs as [|e evs IH]; intros n; [apply incl_refl|]. cbn. eapply incl_tran; [apply sent_mono|apply IH].
Qed.
Lemma coll_incl s s' : incl s s' -> coll_free s' -> coll_free s.
Proof. intros H F a b Ha Hb. apply F; apply H; assumption. Qed.
Lemma prun_cinv evs : forall n, Inv0 (p_db n) (p_next n) -> CInv n -> coll_free (p_sent (prun n evs)) ->
  Inv0 (p_db (prun n evs)) (p_next (prun n evs)) /\ CInv (prun n evs).
Proof.
  induction evs as [|e evs IH]; intros n Z C H; [auto|]. cbn in *. apply IH; [apply inv0_step; exact Z| |exact H].
  apply cstep_cinv; [exact Z| |exact C]. eapply coll_incl; [|exact H]. eapply incl_tran; [apply sent_mono|apply sent_mono_run].
Qed.

(* what one step externalises *)
Lemma ext_step n e : Inv0 (p_db n) (p_next n) -> CInv n ->
  exists new, p_ext (pstep n e) = p_ext n ++ new /\ (exists r, p_rel (pstep n e) = p_rel n ++ r) /\
    forall c, In c new -> l_get (p_db n) (KC (cdig c)) = Some (VC c) /\ In (c_header c) (p_sent n) /\
      (prompt n e -> settled (KC (cdig c)) (ccov (p_epoch n) c) (p_db n)) /\ p_db (pstep n e) = p_db n /\ p_epoch (pstep n e) = p_epoch n.
Proof.
  intros Z C.
  assert (Zero : p_ext (pstep n e) = p_ext n -> p_rel (pstep n e) = p_rel n ->
    exists new, p_ext (pstep n e) = p_ext n ++ new /\ (exists r, p_rel (pstep n e) = p_rel n ++ r) /\
    forall c, In c new -> l_get (p_db n) (KC (cdig c)) = Some (VC c) /\ In (c_header c) (p_sent n) /\
      (prompt n e -> settled (KC (cdig c)) (ccov (p_epoch n) c) (p_db n)) /\ p_db (pstep n e) = p_db n /\ p_epoch (pstep n e) = p_epoch n).
  { intros E1 E2. exists []. rewrite E1, E2, app_nil_r. split; [reflexivity|]. split; [exists []; rewrite app_nil_r; reflexivity|]. intros c []. }
  destruct e; try (apply Zero; cbn [pstep]; unfold ev_parents, ev_propose, ev_repropose, ev_store, ev_ppersist, ev_pack, ev_send, ev_recv, ev_cert,
    ev_cpersist; repeat match goal with |- context [match ?x with _ => _ end] => destruct x end; reflexivity).
  - cbn [pstep] in *. unfold ev_clock in *. destruct (nth_error (p_certs n) i) as [[h| | |]|] eqn:Hn; try (apply Zero; reflexivity).
    destruct (existsb holds_lock (p_certs n)) eqn:El; [apply Zero; reflexivity|].
    destruct (stored_cert (p_db n) (h_digest h)) as [c|] eqn:Es.
    2:{ destruct (h_epoch h =? p_epoch n); apply Zero; reflexivity. }
    clear Zero. exists [c]. ccb. split; [reflexivity|]. split; [exists []; rewrite app_nil_r; reflexivity|].
    intros c' [<-|[]]. pose proof (stored_good _ _ _ _ _ _ _ _ _ _ C Es) as (G1 & G2 & G3).
    rewrite G1. split; [apply stored_get; exact Es|]. split; [exact G2|]. split; [|auto].
    intros Pr. cbn in Pr. specialize (Pr h c Hn Es). eapply disk_settled; [exact C|exact Pr].
  - cbn [pstep] in *. unfold ev_cack in *. destruct (nth_error (p_certs n) i) as [[| | |c b]|] eqn:Hn; try (apply Zero; reflexivity).
    destruct (packed n b true) eqn:Ea; [|destruct (packed n b false); apply Zero; reflexivity].
    clear Zero. exists [c]. ccb. split; [reflexivity|]. split; [exists [c]; reflexivity|]. intros c' [<-|[]].
    pose proof (ci_tasks _ _ _ _ _ _ _ _ C) as T. rewrite Forall_forall in T.
    destruct (T _ (nth_error_In _ _ Hn)) as (T1 & T2 & T3 & T4).
    split; [unfold l_get; rewrite T3; reflexivity|]. split; [exact T1|]. split; [|auto].
    intros _. eapply ack_settles; [apply Z|exact T4|apply packed_in; exact Ea].
Qed.
Lemma settled_same e d c c' : cdig c = cdig c' -> settled (KC (cdig c)) (ccov e c) d -> l_get d (KC (cdig c')) = Some (VC c') -> c' = c.
Proof.
  intros E S G. apply settled_get in S. rewrite E, G in S. cbn in S. destruct S as [S|[S _]]; [congruence|discriminate].
Qed.
Lemma rel_later evs : forall n c, Inv0 (p_db n) (p_next n) -> CInv n -> coll_free (p_sent (prun n evs)) -> In c (p_rel n) ->
  exists new, p_ext (prun n evs) = p_ext n ++ new /\ forall c', In c' new -> cdig c' = cdig c -> c' = c.
Proof.
  induction evs as [|e evs IH]; intros n c Z C F Hc.
  - exists []. rewrite app_nil_r. split; [reflexivity|]. intros c' [].
  - change (prun n (e :: evs)) with (prun (pstep n e) evs) in *. destruct (ext_step n e Z C) as (new & E1 & (r & E2) & H).
    destruct (IH (pstep n e) c) as (new2 & E3 & H3).
    + apply inv0_step. exact Z.
    + apply cstep_cinv; [exact Z| |exact C]. eapply coll_incl; [|exact F]. eapply incl_tran; [apply sent_mono|apply sent_mono_run].
    + exact F.
    + rewrite E2. apply in_app_iff. auto.
    + exists (new ++ new2). rewrite E3, E1, app_assoc. split; [reflexivity|]. intros c' Hc' Ed. apply in_app_iff in Hc' as [Hc'|Hc']; [|auto].
      destruct (H c' Hc') as (G & _). pose proof (ci_rel _ _ _ _ _ _ _ _ C) as R. rewrite Forall_forall in R.
      eapply settled_same; [symmetry; exact Ed|apply R; exact Hc|exact G].
Qed.
(* with prompt republishing, every externalised certificate is settled *)
Definition AInv (n : pnode) : Prop :=
  CI (p_epoch n) (p_db n) (p_task n) (p_chan n) (p_certs n) (p_sent n) (p_ext n) (p_ext n) /\
  (forall c c', In c (p_ext n) -> In c' (p_ext n) -> cdig c = cdig c' -> c = c').
Definition ghost (n : pnode) : pnode :=
  mkP (p_me n) (p_epoch n) (p_db n) (p_next n) (p_round n) (p_prim n) (p_task n) (p_chan n) (p_certs n) (p_sent n) (p_ext n) (p_ext n).
Lemma ghost_step n e : exists r, pstep (ghost n) e =
  (let n' := pstep n e in
   mkP (p_me n') (p_epoch n') (p_db n') (p_next n') (p_round n') (p_prim n') (p_task n') (p_chan n') (p_certs n') (p_sent n') (p_ext n') (p_ext n ++ r)).
Proof.
  destruct n as [me ep db nx rd pr t ch ts s x r0].
  destruct e; cbn [pstep]; unfold ev_parents, ev_propose, ev_repropose, ev_store, ev_ppersist, ev_pack, ev_send, ev_recv, ev_clock, ev_cert,
    ev_cpersist, ev_cack, packed, ghost; ccb;
  repeat match goal with |- context [match ?x with _ => _ end] => destruct x; ccb end;
  first [exists []; rewrite app_nil_r; reflexivity | exists [c]; reflexivity].
Qed.
Lemma astep_ainv n e : Inv0 (p_db n) (p_next n) -> coll_free (p_sent n) -> prompt n e -> AInv n -> AInv (pstep n e).
Proof.
  intros Z F Pr [C U].
  assert (Cg : CInv (ghost n)) by exact C.
  pose proof (cstep_cinv (ghost n) e Z F Cg) as C'. destruct (ghost_step n e) as [r Eg]. unfold CInv in C'. rewrite Eg in C'. cbn in C'.
  (* what was externalised *)
  destruct (ext_step (ghost n) e Z Cg) as (new & E1 & _ & H). rewrite Eg in E1. cbn in E1.
  assert (Hn : forall c, In c new -> l_get (p_db n) (KC (cdig c)) = Some (VC c) /\
     settled (KC (cdig c)) (ccov (p_epoch n) c) (p_db n) /\ p_db (pstep n e) = p_db n /\ p_epoch (pstep n e) = p_epoch n).
  { intros c Hc. destruct (H c Hc) as (H1 & H2 & H3 & H4 & H5). rewrite Eg in H4, H5. cbn in H4, H5.
    split; [exact H1|]. split; [|auto]. apply H3. destruct e; exact Pr. }
  pose proof (ci_rel _ _ _ _ _ _ _ _ C') as R. apply Forall_app in R as [R _].
  pose proof (ci_rel _ _ _ _ _ _ _ _ C) as R0. rewrite Forall_forall in R0.
  split.
  - destruct C' as [c1 c2 c3 c4 c5 c6 c7 c8 c9 c10 c11 c12]. constructor; auto.
    + rewrite E1. apply Forall_app. split; [exact R|]. apply Forall_forall. intros c Hc. destruct (Hn c Hc) as (_ & H2 & -> & ->). exact H2.
    + apply incl_refl.
  - assert (X : forall c c', In c (p_ext n) -> In c' new -> cdig c = cdig c' -> c' = c).
    { intros c c' Hc Hc' Ed. destruct (Hn c' Hc') as (G & _). eapply settled_same; [exact Ed|apply R0; exact Hc|exact G]. }
    rewrite E1. intros c c' Hc Hc' Ed. rewrite in_app_iff in Hc, Hc'. destruct Hc as [Hc|Hc], Hc' as [Hc'|Hc'].
    + apply U; assumption.
    + symmetry. apply X; assumption.
    + apply X; auto.
    + destruct (Hn c Hc) as (G & _), (Hn c' Hc') as (G' & _). rewrite Ed in G. congruence.
Qed.
Lemma prun_ainv evs : forall n, Inv0 (p_db n) (p_next n) -> AInv n -> coll_free (p_sent (prun n evs)) -> along prompt n evs -> AInv (prun n evs).
Proof.
  induction evs as [|e evs IH]; intros n Z C H A; [auto|]. destruct A as [A1 A2]. cbn in *. apply IH; [apply inv0_step; exact Z| |exact H|exact A2].
  apply astep_ainv; [exact Z| |exact A1|exact C]. eapply coll_incl; [|exact H]. eapply incl_tran; [apply sent_mono|apply sent_mono_run].
Qed.
