(** C21 and C22: the certificate manager, for every order of arrivals, every advance of garbage collection and every walk order of
    the hash sets. [y_out] is the list of certificates sent to consensus, each with the gc round in force at that moment;
    [S0] is what the store held when the manager started. *)
From Verif Require Import Util Types CommitteeModel CertModel SyncModel SyncSpec SyncProofs2 SyncProofs3.
Local Open Scope N_scope.

Lemma cnt_occ d l : cnt d l = count_occ N.eq_dec (map c_digest l) d.
Proof.
  unfold cnt. induction l as [|c l IH]; [reflexivity|]. cbn. destruct (N.eq_dec (c_digest c) d) as [->|n].
  - rewrite N.eqb_refl. cbn. rewrite IH. reflexivity.
  - apply N.eqb_neq in n. rewrite n. exact IH.
Qed.
Lemma srun_app gd ig a b : forall s, srun gd ig s (a ++ b) = srun gd ig (srun gd ig s a) b.
Proof. induction a as [|e a IH]; intros s; [reflexivity|]. apply IH. Qed.
Lemma arrivals_app a b : arrivals (a ++ b) = arrivals a ++ arrivals b.
Proof. apply flat_map_app. Qed.

(** A certificate is forwarded to consensus only when it is at most one round above the gc round or every one of its parents is
    already in the store (at the start, or forwarded earlier). *)
Theorem C21_causal_order : forall gc_depth is_genesis r0 S0 evs,
  Forall sound_event evs -> consistent (arrivals evs) ->
  let s := srun gc_depth is_genesis (sinit r0 S0) evs in
  forall l1 g c l2, y_out s = l1 ++ (g, c) :: l2 ->
    c_round c <= g + 1 \/ forall q, In q (c_parents c) -> In q (map c_digest (S0 ++ map snd l1)).
Proof.
  intros gd ig r0 S0 evs Hs Hc s. destruct (srun_ok gd ig _ Hc S0 evs (sinit r0 S0) Hs (fun c H => H) (sinit_inv gd _ S0 r0)) as (I & _).
  apply (si_ord _ _ _ _ I).
Qed.

(** The gc round a certificate is forwarded under is the one in force during the event that forwards it, and it never decreases. *)
Theorem C21_gc_round_at_forwarding : forall gc_depth is_genesis r0 S0 evs e,
  Forall sound_event (evs ++ [e]) -> consistent (arrivals (evs ++ [e])) ->
  let s := srun gc_depth is_genesis (sinit r0 S0) evs in
  let s' := srun gc_depth is_genesis (sinit r0 S0) (evs ++ [e]) in
  exists new, y_out s' = y_out s ++ new /\
    Forall (fun x => y_commit s - gc_depth <= fst x <= y_commit s' - gc_depth) new.
Proof.
  intros gd ig r0 S0 evs e Hs Hc s s'.
  destruct (srun_ok gd ig _ Hc S0 (evs ++ [e]) (sinit r0 S0) Hs (fun c H => H) (sinit_inv gd _ S0 r0)) as (I' & _). fold s' in I'.
  apply Forall_app in Hs as [H1 H2].
  destruct (srun_ok gd ig _ Hc S0 evs (sinit r0 S0) H1) as (I & _); [|apply sinit_inv|].
  { intros c H. rewrite arrivals_app. apply in_app_iff. auto. }
  destruct (srun_ok gd ig _ Hc S0 [e] s H2) as (_ & (_ & new & E & L) & _); [|exact I|].
  { intros c H. rewrite arrivals_app. apply in_app_iff. auto. }
  assert (ES : srun gd ig s [e] = s') by (unfold s'; rewrite srun_app; reflexivity). rewrite ES in E.
  exists new. split; [exact E|]. pose proof (si_g _ _ _ _ I') as G. rewrite E in G. apply Forall_app in G as [_ G].
  rewrite Forall_forall in *. intros x Hx. split; [exact (L x Hx)|exact (G x Hx)].
Qed.

(** What is stored is exactly what was there at the start followed by what was forwarded, in that order. *)
Theorem C21_store_follows_forwarding : forall gc_depth is_genesis r0 S0 evs,
  Forall sound_event evs -> consistent (arrivals evs) ->
  let s := srun gc_depth is_genesis (sinit r0 S0) evs in y_store s = S0 ++ map snd (y_out s).
Proof.
  intros gd ig r0 S0 evs Hs Hc s. destruct (srun_ok gd ig _ Hc S0 evs (sinit r0 S0) Hs (fun c H => H) (sinit_inv gd _ S0 r0)) as (I & _).
  apply (si_store _ _ _ _ I).
Qed.

(** Only verified certificates that arrived are forwarded, at most once per arrival, and a pending one is not forwarded as well. *)
Theorem C21_forwarded_at_most_once_per_arrival : forall gc_depth is_genesis r0 S0 evs,
  Forall sound_event evs -> consistent (arrivals evs) ->
  let s := srun gc_depth is_genesis (sinit r0 S0) evs in
  (forall g c, In (g, c) (y_out s) -> In c (arrivals evs) /\ is_verified c = true) /\
  forall d, (count_occ N.eq_dec (map c_digest (map snd (y_out s))) d + (if is_pending (y_mgr s) d then 1 else 0)
             <= count_occ N.eq_dec (map c_digest (arrivals evs)) d)%nat.
Proof.
  intros gd ig r0 S0 evs Hs Hc s.
  destruct (srun_ok gd ig _ Hc S0 evs (sinit r0 S0) Hs (fun c H => H) (sinit_inv gd _ S0 r0)) as (I & _ & _ & Sc & _). split.
  - intros g c H. pose proof (si_U _ _ _ _ I) as F. rewrite Forall_forall in F. apply (F c). apply in_map_iff. exists (g, c). auto.
  - intros d. specialize (Sc d). fold s in Sc. rewrite <- !cnt_occ. unfold score, pend in Sc. cbn in Sc. unfold is_pending.
    destruct (a_get N.eqb d (pm_pending (y_mgr s))); lia.
Qed.

(** Nothing is lost: every verified certificate that arrived is forwarded or still pending. *)
Theorem C21_nothing_lost : forall gc_depth is_genesis r0 S0 evs,
  Forall sound_event evs -> consistent (arrivals evs) -> Forall (fun c => is_verified c = true) (arrivals evs) ->
  let s := srun gc_depth is_genesis (sinit r0 S0) evs in
  forall c, In c (arrivals evs) -> is_pending (y_mgr s) (c_digest c) = true \/ In (c_header c) (map c_header (map snd (y_out s))).
Proof.
  intros gd ig r0 S0 evs Hs Hc Hv s c Hin.
  destruct (srun_ok gd ig _ Hc S0 evs (sinit r0 S0) Hs (fun c H => H) (sinit_inv gd _ S0 r0)) as (I & _ & _ & _ & _ & A).
  specialize (A Hv c Hin). fold s in A, I. unfold score, pend in A. unfold is_pending.
  destruct (a_get N.eqb (c_digest c) (pm_pending (y_mgr s))); [auto|]. right.
  unfold cnt in A. destruct (filter (fun c0 => c_digest c0 =? c_digest c) (map snd (y_out s))) as [|x t] eqn:F; [cbn in A; lia|].
  assert (Hx : In x (filter (fun c0 => c_digest c0 =? c_digest c) (map snd (y_out s)))) by (rewrite F; left; reflexivity).
  apply filter_In in Hx as [H1 H2]. apply N.eqb_eq in H2. apply in_map_iff. exists x. split; [|exact H1].
  pose proof (si_U _ _ _ _ I) as FU. rewrite Forall_forall in FU. destruct (FU x H1) as [H3 _].
  apply (Hc x c H3 Hin). exact H2.
Qed.

(** A certificate is pending only while it waits: some parent of it is not in the store. So at the end of the event in which its last
    missing parent is accepted it is no longer pending (for collected parents see C22_sweep_completes). *)
Theorem C21_pending_means_waiting : forall gc_depth is_genesis r0 S0 evs,
  Forall sound_event evs -> consistent (arrivals evs) ->
  let s := srun gc_depth is_genesis (sinit r0 S0) evs in
  forall d, is_pending (y_mgr s) d = true ->
    exists c q, In c (arrivals evs) /\ c_digest c = d /\ In q (c_parents c) /\ ~ In q (map c_digest (y_store s)).
Proof.
  intros gd ig r0 S0 evs Hs Hc s d Hp.
  destruct (srun_ok gd ig _ Hc S0 evs (sinit r0 S0) Hs (fun c H => H) (sinit_inv gd _ S0 r0)) as (I & _). fold s in I.
  unfold is_pending in Hp. destruct (a_get N.eqb d (pm_pending (y_mgr s))) as [p|] eqn:G; [|discriminate].
  destruct (pending_waits gd ig _ S0 s d p I G) as (E & [U _] & Ne & W). destruct (pc_missing p) as [|q t]; [contradiction|].
  destruct (W q (or_introl eq_refl)) as (W1 & W2 & _). exists (pc_cert p), q. auto.
Qed.

(** The two maps agree at every moment between events: a certificate is pending for a missing digest in the one exactly when the
    other lists it under that digest (and the round below it), and no pending certificate misses nothing. *)
Theorem C22_maps_agree : forall gc_depth is_genesis r0 S0 evs,
  Forall sound_event evs -> consistent (arrivals evs) ->
  let m := y_mgr (srun gc_depth is_genesis (sinit r0 S0) evs) in
  (forall d r q, (exists p, a_get N.eqb d (pm_pending m) = Some p /\ c_round (pc_cert p) = r + 1 /\ In q (pc_missing p)) <->
                 (exists ds, a_get rkey_eqb (r, q) (pm_missing m) = Some ds /\ In d ds)) /\
  (forall d p, a_get N.eqb d (pm_pending m) = Some p -> c_digest (pc_cert p) = d /\ pc_missing p <> []) /\
  (forall k ds, a_get rkey_eqb k (pm_missing m) = Some ds -> ds <> []).
Proof.
  intros gd ig r0 S0 evs Hs Hc m.
  destruct (srun_ok gd ig _ Hc S0 evs (sinit r0 S0) Hs (fun c H => H) (sinit_inv gd _ S0 r0)) as (I & _).
  pose proof (si_m _ _ _ _ I) as M. fold m in M. split; [|split].
  - intros d r q. pose proof (mi_idx _ _ _ _ _ _ M d (r, q)) as X. unfold waits, listed, noE in X. cbn [fst snd] in X. rewrite <- X.
    split; [intros [H|[]]; exact H|auto].
  - intros d p G. destruct (mi_ent _ _ _ _ _ _ M d p G) as (A & _ & _ & B & _). auto.
  - intros k ds G. apply (mi_set _ _ _ _ _ _ M k ds G).
Qed.

(** The bookkeeping errors never occur: a batch ends well, or reports a pending or an unverified certificate. *)
Theorem C22_no_bookkeeping_errors : forall gc_depth is_genesis r0 S0 evs,
  Forall sound_event evs -> consistent (arrivals evs) ->
  Forall (fun r => r = Ok tt \/ (exists d, r = Err (Pending d)) \/ r = Err Unverified')
    (sresults gc_depth is_genesis (sinit r0 S0) evs).
Proof.
  intros gd ig r0 S0 evs Hs Hc.
  destruct (srun_ok gd ig _ Hc S0 evs (sinit r0 S0) Hs (fun c H => H) (sinit_inv gd _ S0 r0)) as (_ & _ & F & _). exact F.
Qed.

(** A gc sweep always completes, and leaves nothing at or below the gc round: no missing digest of such a round is tracked, and
    every certificate still pending is more than one round above it. *)
Theorem C22_sweep_completes : forall gc_depth is_genesis r0 S0 evs n envs,
  Forall sound_event (evs ++ [SGc n envs]) -> consistent (arrivals evs) ->
  let s := srun gc_depth is_genesis (sinit r0 S0) evs in
  let s' := srun gc_depth is_genesis (sinit r0 S0) (evs ++ [SGc n envs]) in
  snd (sstep gc_depth is_genesis s (SGc n envs)) = Ok tt /\
  (forall r q ds, a_get rkey_eqb (r, q) (pm_missing (y_mgr s')) = Some ds -> y_commit s' - gc_depth < r) /\
  (forall d p, a_get N.eqb d (pm_pending (y_mgr s')) = Some p -> y_commit s' - gc_depth + 1 < c_round (pc_cert p)).
Proof.
  intros gd ig r0 S0 evs n envs Hs Hc s s'. apply Forall_app in Hs as [H1 H2]. inversion H2 as [|? ? H3 _]; subst.
  destruct (srun_ok gd ig _ Hc S0 evs (sinit r0 S0) H1 (fun c H => H) (sinit_inv gd _ S0 r0)) as (I & _). fold s in I.
  destruct (sstep gd ig s (SGc n envs)) as [s2 r] eqn:P.
  assert (ES : s' = s2) by (unfold s'; rewrite srun_app; fold s; cbn [srun]; rewrite P; reflexivity).
  cbn [sstep] in P. unfold gc_round_event in P.
  destruct (gc_loop_ok gd ig _ Hc S0 _ envs (see_commit n s) s2 r H3 (see_inv gd ig _ _ n s I) (Nat.le_refl _) P) as (I2 & _ & E & _ & G & K).
  rewrite ES. split; [exact E|]. rewrite <- G in K.
  split; [intros r1 q ds H; apply (K (r1, q) ds H)|].
  intros d p H. destruct (pending_waits gd ig _ S0 s2 d p I2 H) as (_ & _ & Ne & W). destruct (pc_missing p) as [|q t]; [contradiction|].
  destruct (W q (or_introl eq_refl)) as (_ & _ & ds & L & _). specialize (K _ _ L). cbn [fst] in K. unfold gc_of in K. lia.
Qed.

(** ** A concrete history. Round-3 certificates arrive before their round-2 parents, one parent never comes and is collected. *)
Definition ex_c (r d : N) (ps : list N) : cert := mkCert (mkHeader 1 r 0 0 [] ps 0 0 0 d) (VerifiedDirectly 0) [].
Definition ex_env (r : N) : env1 := mkEnv r true (fun _ l => rev l).
Definition ex_evs : list sev :=
  [SCerts [(ex_env 0, ex_c 3 30 [20; 21]); (ex_env 0, ex_c 4 40 [30; 31]); (ex_env 0, ex_c 3 31 [21; 22])];
   SCerts [(ex_env 1, ex_c 2 20 [10]); (ex_env 1, ex_c 2 21 [10]); (ex_env 1, ex_c 3 30 [20; 21])];
   SGc 6 [(true, fun _ l => l)]].
Example C21_example :
  Forall sound_event ex_evs /\ consistent (arrivals ex_evs) /\
  map (fun x => (fst x, c_digest (snd x))) (y_out (srun 4 (fun _ => false) (sinit 0 [ex_c 1 10 []]) ex_evs)) =
    [(0, 20); (0, 21); (0, 30); (0, 30); (2, 31); (2, 40)] /\
  pm_pending (y_mgr (srun 4 (fun _ => false) (sinit 0 [ex_c 1 10 []]) (firstn 1 ex_evs))) <> [] /\
  sresults 4 (fun _ => false) (sinit 0 [ex_c 1 10 []]) ex_evs = [Err (Pending 31); Ok tt; Ok tt].
Proof.
  split; [|split; [|split; [vm_compute; reflexivity|split; [vm_compute; discriminate|vm_compute; reflexivity]]]].
  - assert (R : forall n, e_ok (ex_env n) = true /\ fair_order (e_ord (ex_env n)))
      by (intros n; split; [reflexivity|intros k l; apply Permutation_sym, Permutation_rev]).
    repeat constructor; try apply R. intros k l. apply Permutation_refl.
  - intros x y Hx Hy.
    assert (K : forallb (fun x => forallb (fun y =>
        implb (c_digest x =? c_digest y) ((c_round x =? c_round y) && (if list_eq_dec N.eq_dec (c_parents x) (c_parents y) then true else false)) &&
        implb (memN (c_digest x) (c_parents y)) (c_round y =? c_round x + 1)) (arrivals ex_evs)) (arrivals ex_evs) = true)
      by (vm_compute; reflexivity).
    rewrite forallb_forall in K. specialize (K x Hx). rewrite forallb_forall in K. specialize (K y Hy).
    apply andb_true_iff in K as [K1 K2]. split.
    + intros E. rewrite E, N.eqb_refl in K1. cbn [implb] in K1. apply andb_true_iff in K1 as [K1 K3]. apply N.eqb_eq in K1.
      destruct (list_eq_dec N.eq_dec (c_parents x) (c_parents y)) as [K4|]; [|discriminate].
      assert (F : Forall (fun z => c_header z = c_header (ex_c (c_round z) (c_digest z) (c_parents z))) (arrivals ex_evs))
        by (repeat constructor).
      rewrite Forall_forall in F. rewrite (F x Hx), (F y Hy), E, K1, K4. reflexivity.
    + intros P. apply memN_In in P. rewrite P in K2. apply N.eqb_eq in K2. exact K2.
Qed.

(** ** Boundaries.
    With a failed storage write the manager has already taken the certificate's children out of the pending map and goes on: a
    child can then be forwarded although a parent above the gc round is in no store (certificate 30 here, parent 20). *)
Example C21_failed_write_refuted :
  exists evs, consistent (arrivals evs) /\
    map (fun x => (fst x, c_digest (snd x))) (y_out (srun 4 (fun _ => false) (sinit 0 []) evs)) = [(0, 21); (0, 30)] /\
    In 20 (c_parents (ex_c 3 30 [20; 21])) /\ stored (y_store (srun 4 (fun _ => false) (sinit 0 []) evs)) 20 = false.
Proof.
  exists [SCerts [(ex_env 0, ex_c 3 30 [20; 21])]; SCerts [(mkEnv 0 false (fun _ l => l), ex_c 2 20 [])]; SCerts [(ex_env 0, ex_c 2 21 [])]].
  split; [|split; [vm_compute; reflexivity|split; [left; reflexivity|vm_compute; reflexivity]]].
  intros x y Hx Hy. cbn in Hx, Hy.
  destruct Hx as [<-|[<-|[<-|[]]]]; destruct Hy as [<-|[<-|[<-|[]]]]; split; cbn; intros H;
    try reflexivity; try discriminate; repeat (destruct H as [H|H]; try discriminate); contradiction.
Qed.
(** Without the round relation between a certificate and its parents (which voters enforce) the sweep's early clearing of a
    pending certificate leaves stale index entries, and the 'not found' error occurs (certificate 70 of round 7 named as a
    parent by 50 of round 5). *)
Example C22_inconsistent_rounds_refuted :
  exists evs, Forall sound_event evs /\
    In (Err PendingCertificateNotFound) (sresults 4 (fun _ => false) (sinit 0 []) evs).
Proof.
  exists [SCerts [(ex_env 0, ex_c 7 70 [60; 61]); (ex_env 0, ex_c 5 50 [70])]; SGc 8 [];
          SCerts [(ex_env 8, ex_c 6 60 [])]; SCerts [(ex_env 8, ex_c 6 61 [])]].
  split; [|vm_compute; tauto].
  assert (R : forall n, e_ok (ex_env n) = true /\ fair_order (e_ord (ex_env n)))
    by (intros n; split; [reflexivity|intros k l; apply Permutation_sym, Permutation_rev]).
  repeat constructor; apply R.
Qed.
