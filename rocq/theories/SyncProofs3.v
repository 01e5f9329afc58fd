(* Proofs for C21 and C22, part 2: the certificate manager over whole histories. *)
From Verif Require Import Util Types CommitteeModel CertModel SyncModel SyncSpec SyncProofs2.
Local Open Scope N_scope.

Section Mgr.
Variable gc_depth : N.
Variable is_genesis : N -> bool.
Variable all : list cert.
Hypothesis cons : consistent all.
Variable S0 : list cert.

Notation gc_of := (gc_of gc_depth).
Notation process := (process gc_depth is_genesis).
Notation sstep := (sstep gc_depth is_genesis).
Notation srun := (srun gc_depth is_genesis).

Definition UU (c : cert) : Prop := In c all /\ is_verified c = true.
Lemma UUcons x y : UU x -> UU y -> In (c_digest x) (c_parents y) -> c_round y = c_round x + 1.
Proof. intros [Hx _] [Hy _] H. apply (cons x y Hx Hy). exact H. Qed.

Record sinv (s : csync) : Prop := mkSinv {
  si_store : y_store s = S0 ++ map snd (y_out s);
  si_m : minv UU (gc_of s) (map c_digest (y_store s)) [] noE (y_mgr s);
  si_ord : forall l1 g c l2, y_out s = l1 ++ (g, c) :: l2 ->
     c_round c <= g + 1 \/ forall q, In q (c_parents c) -> In q (map c_digest (S0 ++ map snd l1));
  si_U : Forall UU (map snd (y_out s));
  si_g : Forall (fun x => fst x <= gc_of s) (y_out s)
}.
Definition score (s : csync) (d : N) : nat := (cnt d (map snd (y_out s)) + pend (y_mgr s) d)%nat.

Lemma sinit_inv r : sinv (sinit r S0).
Proof.
  split; cbn.
  - rewrite app_nil_r. reflexivity.
  - split; cbn; try discriminate. intros d k. unfold listed, waits, noE. cbn. split; [intros [(ds & H & _)|[]]; discriminate|].
    intros (p & H & _). discriminate.
  - intros l1 g c l2 H. destruct l1; discriminate.
  - constructor.
  - constructor.
Qed.
Lemma see_inv r s : sinv s -> sinv (see_commit r s).
Proof.
  intros [A B C D E]. assert (G : gc_of s <= gc_of (see_commit r s)) by (unfold SyncModel.gc_of; cbn; lia). split; auto.
  - change (y_store (see_commit r s)) with (y_store s). change (y_mgr (see_commit r s)) with (y_mgr s).
    eapply minv_widen; [exact G|apply incl_refl| |exact B]. auto.
  - cbn [y_out see_commit]. eapply Forall_impl; [|exact E]. cbn. intros a Ha. lia.
Qed.

Lemma stored_In l d : stored l d = true <-> In d (map c_digest l).
Proof.
  unfold stored. rewrite existsb_exists, in_map_iff. split; intros (c & H1 & H2); exists c; split; auto; apply N.eqb_eq; auto.
Qed.

Lemma tag_snd (g : N) (l : list cert) : map snd (map (fun c => (g, c)) l) = l.
Proof. rewrite map_map. apply map_id. Qed.
(* a batch of accepted certificates extends the history in causal order *)
Lemma extend_inv s m l : sinv s -> minv UU (gc_of s) (map c_digest (y_store s) ++ map c_digest l) [] noE m ->
  ordered (gc_of s) (map c_digest (y_store s)) l -> Forall UU l ->
  sinv (mkCsync (y_commit s) (y_store s ++ l) m (y_out s ++ map (fun c => (gc_of s, c)) l)).
Proof.
  intros [A B C D E] I O FU. split.
  - cbn. rewrite A, map_app, map_map. cbn. rewrite map_id, app_assoc. reflexivity.
  - cbn [y_store y_mgr]. rewrite map_app. exact I.
  - intros l1 g c l2 H. cbn [y_out] in H.
    assert (Sp : (exists l2', y_out s = l1 ++ (g, c) :: l2') \/
       (exists a b, l = a ++ c :: b /\ g = gc_of s /\ l1 = y_out s ++ map (fun c => (gc_of s, c)) a)).
    { clear - H. revert l1 H. induction (y_out s) as [|y out IH]; intros l1 H.
      - right. cbn in H. revert l1 H. induction l as [|x l IHl]; cbn; intros l1 H; [destruct l1; discriminate|].
        destruct l1 as [|z l1]; cbn in H.
        + injection H as <- <- _. exists [], l. auto.
        + injection H as <- H. destruct (IHl l1 H) as (a & b & -> & -> & ->). exists (x :: a), b. auto.
      - destruct l1 as [|z l1]; cbn in H.
        + injection H as -> _. left. eexists. reflexivity.
        + injection H as <- H. destruct (IH l1 H) as [(l2' & ->)|(a & b & E1 & E2 & ->)]; [left; eexists; reflexivity|].
          right. exists a, b. auto. }
    destruct Sp as [(l2' & E1)|(a & b & E1 & -> & ->)]; [exact (C _ _ _ _ E1)|].
    destruct (O a c b E1) as [L|L]; [auto|]. right. intros q Hq. specialize (L q Hq).
    rewrite A in L. rewrite (map_app snd), tag_snd, app_assoc, (map_app c_digest (S0 ++ _)). exact L.
  - cbn. rewrite map_app, map_map. cbn. rewrite map_id. apply Forall_app. auto.
  - cbn [y_out]. apply Forall_app. split; [exact E|]. rewrite Forall_map. apply Forall_forall. intros x _. cbn. unfold SyncModel.gc_of. cbn. lia.
Qed.

Definition grows (s s' : csync) : Prop :=
  gc_of s <= gc_of s' /\ exists new, y_out s' = y_out s ++ new /\ Forall (fun x => gc_of s <= fst x) new.
Lemma grows_refl s : grows s s. Proof. split; [lia|]. exists []. rewrite app_nil_r. split; [reflexivity|constructor]. Qed.
Lemma grows_trans a b c : grows a b -> grows b c -> grows a c.
Proof.
  intros [A1 (n1 & A2 & A3)] [B1 (n2 & B2 & B3)]. split; [lia|]. exists (n1 ++ n2). rewrite B2, A2, app_assoc. split; [reflexivity|].
  apply Forall_app. split; [exact A3|]. eapply Forall_impl; [|exact B3]. cbn. intros x Hx. lia.
Qed.
Lemma grows_see r s : grows s (see_commit r s).
Proof. split; [unfold SyncModel.gc_of; cbn; lia|]. exists []. cbn. rewrite app_nil_r. split; [reflexivity|constructor]. Qed.
Lemma tag_fst (g : N) (l : list cert) : Forall (fun x => g <= fst x) (map (fun c => (g, c)) l).
Proof. rewrite Forall_map. apply Forall_forall. intros x _. apply N.le_refl. Qed.

(* result codes a batch can end with *)
Definition fine (res r : result unit cm_err) : Prop :=
  r = res \/ (exists d, r = Err (Pending d)) \/ r = Err Unverified'.

Lemma process_ok : forall l res s s' r,
  Forall (fun x => e_ok (fst x) = true /\ fair_order (e_ord (fst x))) l -> (forall c, In c (map snd l) -> In c all) ->
  sinv s -> process l res s = (s', r) ->
  sinv s' /\ grows s s' /\ fine res r /\
  (forall d, score s d <= score s' d <= score s d + cnt d (map snd l))%nat /\
  (Forall (fun c => is_verified c = true) (map snd l) -> r <> Err Unverified' \/ res = Err Unverified') /\
  (Forall (fun c => is_verified c = true) (map snd l) -> forall c, In c (map snd l) -> (1 <= score s' (c_digest c))%nat).
Proof.
  induction l as [|[ev c] l IH]; intros res s s' r Fl Hall I P.
  - cbn in P. injection P as <- <-. split; [exact I|]. split; [apply grows_refl|]. split; [left; reflexivity|].
    split; [intros d; cbn; lia|]. split; [intros _; destruct res as [|[]]; (left; discriminate) || (right; reflexivity)|intros _ c []].
  - cbn [SyncModel.process] in P. inversion Fl as [|? ? [Ok Fo] Fl']; subst. cbn [fst] in Ok, Fo.
    set (s1 := see_commit (e_commit ev) s) in *. pose proof (see_inv (e_commit ev) s I) as I1. fold s1 in I1.
    assert (Sc1 : forall d, score s1 d = score s d) by reflexivity.
    pose proof (grows_see (e_commit ev) s) as G1. fold s1 in G1.
    assert (Hall' : forall c0, In c0 (map snd l) -> In c0 all) by (intros c0 H; apply Hall; right; exact H).
    destruct (is_verified c) eqn:V; cbn [negb] in P.
    2:{ injection P as <- <-. split; [exact I1|]. split; [exact G1|]. split; [right; right; reflexivity|].
        split; [intros d; rewrite Sc1; lia|]. split; intros F; inversion F; cbn in *; congruence. }
    assert (Uc : UU c) by (split; [apply Hall; left; reflexivity|exact V]).
    set (d := c_digest c) in *.
    assert (FIN : forall s2 res', sinv s2 -> grows s1 s2 -> fine res res' -> (res' <> Err Unverified' \/ res = Err Unverified') ->
       (forall d', score s d' <= score s2 d' <= score s d' + cnt d' [c])%nat -> (1 <= score s2 d)%nat ->
       process l res' s2 = (s', r) ->
       sinv s' /\ grows s s' /\ fine res r /\
       (forall d', score s d' <= score s' d' <= score s d' + cnt d' (map snd ((ev, c) :: l)))%nat /\
       (Forall (fun c => is_verified c = true) (map snd ((ev, c) :: l)) -> r <> Err Unverified' \/ res = Err Unverified') /\
       (Forall (fun c => is_verified c = true) (map snd ((ev, c) :: l)) ->
          forall c0, In c0 (map snd ((ev, c) :: l)) -> (1 <= score s' (c_digest c0))%nat)).
    { intros s2 res' I2 G2 F2 N2 Sc2 One P2. destruct (IH res' s2 s' r Fl' Hall' I2 P2) as (A1 & A2 & A3 & A4 & A5 & A6).
      split; [exact A1|]. split; [eapply grows_trans; [exact G1|]; eapply grows_trans; eassumption|].
      split; [destruct A3 as [->|A3]; [exact F2|right; exact A3]|].
      assert (CC : forall d', cnt d' (map snd ((ev, c) :: l)) = (cnt d' [c] + cnt d' (map snd l))%nat).
      { intros d'. change (map snd ((ev, c) :: l)) with ([c] ++ map snd l). apply cnt_app. }
      split; [intros d'; rewrite CC; specialize (A4 d'); specialize (Sc2 d'); lia|].
      split.
      - intros F. inversion F as [|? ? _ F']; subst. destruct (A5 F') as [H|H]; [left; exact H|].
        destruct N2 as [H2|H2]; [contradiction|right; exact H2].
      - intros F. inversion F as [|? ? _ F']; subst. intros c0 [<-|H0]; [|apply A6; assumption].
        cbn [snd]. fold d. specialize (A4 d). lia. }
    unfold is_pending in P. destruct (a_get N.eqb d (pm_pending (y_mgr s1))) as [p|] eqn:PD.
    { apply FIN with s1 (Err (Pending d)); auto.
      - apply grows_refl.
      - right. left. eauto.
      - left. discriminate.
      - intros d'. rewrite Sc1. lia.
      - unfold score, pend. rewrite PD. lia. }
    (* accepting [c] *)
    assert (GO : (c_round c <= gc_of s1 + 1 \/ forall q, In q (c_parents c) -> In q (map c_digest (y_store s1))) ->
       match update_pending (e_ord ev) (c_round c, d) (y_mgr s1) with
       | Err e => (s1, Err e)
       | Ok (m, unlocked) =>
           match accept_all gc_depth (e_ok ev) (c :: unlocked) (with_mgr s1 m) with
           | Err e => (with_mgr s1 m, Err e)
           | Ok s' => process l res s'
           end
       end = (s', r) -> sinv s' /\ grows s s' /\ fine res r /\
       (forall d', score s d' <= score s' d' <= score s d' + cnt d' (map snd ((ev, c) :: l)))%nat /\
       (Forall (fun c => is_verified c = true) (map snd ((ev, c) :: l)) -> r <> Err Unverified' \/ res = Err Unverified') /\
       (Forall (fun c => is_verified c = true) (map snd ((ev, c) :: l)) ->
          forall c0, In c0 (map snd ((ev, c) :: l)) -> (1 <= score s' (c_digest c0))%nat)).
    { intros Par. 
      destruct (accept_ok UU UUcons (e_ord ev) (gc_of s1) (map c_digest (y_store s1)) c (y_mgr s1) Fo Uc Par (si_m _ I1))
        as (m & rd & E & I2 & O2 & FU2 & CNT). fold d in E. rewrite E. unfold accept_all. rewrite Ok. intros P2.
      refine (FIN _ res _ _ _ _ _ _ P2).
      - apply (extend_inv s1 m (c :: rd)); assumption.
      - split; [apply N.le_refl|]. eexists. split; [reflexivity|apply tag_fst].
      - left. reflexivity.
      - destruct res as [|[]]; (left; discriminate) || (right; reflexivity).
      - intros d'. unfold score. cbn [y_out y_mgr with_mgr]. rewrite map_app, tag_snd, cnt_app.
        change (c :: rd) with ([c] ++ rd). rewrite cnt_app. specialize (CNT d'). change (y_out s1) with (y_out s).
        change (y_mgr s1) with (y_mgr s) in CNT. lia.
      - unfold score. cbn [y_out y_mgr with_mgr]. rewrite map_app, tag_snd, cnt_app.
        unfold cnt at 2. cbn [filter]. unfold d. rewrite N.eqb_refl. cbn. lia. }
    destruct (gc_of s1 + 1 <? c_round c) eqn:R.
    + apply N.ltb_lt in R. unfold missing_parents in P.
      destruct (c_round c =? 1) eqn:R1; [apply N.eqb_eq in R1; lia|].
      set (miss := nodup N.eq_dec (filter (fun p => negb (stored (y_store s1) p)) (c_parents c))) in *.
      assert (MI : forall q, In q miss <-> In q (c_parents c) /\ ~ In q (map c_digest (y_store s1))).
      { intros q. unfold miss. rewrite nodup_In, filter_In, negb_true_iff. rewrite <- (stored_In (y_store s1) q).
        destruct (stored (y_store s1) q); intuition congruence. }
      assert (DEC : forall q, In q (c_parents c) -> In q miss \/ In q (map c_digest (y_store s1))).
      { intros q Hq. destruct (in_dec N.eq_dec q (map c_digest (y_store s1))); [auto|left; apply MI; auto]. }
      destruct miss as [|q0 miss'] eqn:EM.
      * apply GO; [|exact P]. right. intros q Hq. destruct (DEC q Hq) as [[]|H]; exact H.
      * rewrite <- EM in *.
        destruct (insert_ok UU (gc_of s1) (map c_digest (y_store s1)) c miss (y_mgr s1)) as (m & E & I2 & CNT); auto.
        -- lia.
        -- rewrite EM. discriminate.
        -- intros q Hq. apply MI. exact Hq.
        -- apply (si_m _ I1).
        -- rewrite E in P. refine (FIN (with_mgr s1 m) (Err (Pending d)) _ _ _ _ _ _ P).
           ++ destruct I1 as [A B C D E']. split; auto.
           ++ split; [apply N.le_refl|]. exists []. rewrite app_nil_r. split; [reflexivity|constructor].
           ++ right. left. eauto.
           ++ left. discriminate.
           ++ intros d'. unfold score. cbn [with_mgr y_out y_mgr]. rewrite CNT.
              replace (cnt d' [c]) with (if (d =? d') then 1%nat else 0%nat) by (unfold cnt; cbn [filter]; fold d; destruct (d =? d'); reflexivity).
              change (y_out s1) with (y_out s). change (y_mgr s1) with (y_mgr s). fold d. destruct (d =? d'); lia.
           ++ unfold score. cbn [with_mgr y_out y_mgr]. rewrite CNT. fold d. rewrite N.eqb_refl. lia.
    + apply N.ltb_ge in R. apply GO; [left; exact R|exact P].
Qed.

Lemma gc_loop_ok : forall fuel envs s s' r,
  Forall (fun x => fst x = true /\ fair_order (snd x)) envs -> sinv s -> (length (pm_missing (y_mgr s)) <= fuel)%nat ->
  gc_loop gc_depth fuel (gc_of s) envs s = (s', r) ->
  sinv s' /\ grows s s' /\ r = Ok tt /\ (forall d, score s' d = score s d) /\ gc_of s' = gc_of s /\
  (forall k ds, a_get rkey_eqb k (pm_missing (y_mgr s')) = Some ds -> gc_of s < fst k).
Proof.
  induction fuel as [|f IH]; intros envs s s' r Fe I LE P; cbn [gc_loop] in P;
    pose proof (next_ok UU (gc_of s) _ (gc_of s) (y_mgr s) UUcons (si_m _ I)) as NX;
    destruct (next_for_gc (gc_of s) (y_mgr s)) as [[k m]|].
  - destruct NX as (_ & _ & NX). destruct (pm_missing (y_mgr s)); [contradiction NX; reflexivity|cbn in LE; lia].
  - injection P as <- <-. split; [exact I|]. split; [apply grows_refl|]. auto.
  - destruct NX as (-> & Hk & Hm).
    set (ev := hd (true, fun (_ : nat) (l : list N) => l) envs) in *.
    assert (Hev : fst ev = true /\ fair_order (snd ev)).
    { unfold ev. destruct Fe as [|e es H _]; cbn; [split; [reflexivity|intros n l; apply Permutation_refl]|exact H]. }
    destruct Hev as [Ho Hf].
    destruct (collect_ok UU UUcons (snd ev) (gc_of s) (map c_digest (y_store s)) k (y_mgr s) Hf Hk Hm (si_m _ I))
      as (m' & rd & E & I2 & O2 & FU2 & LT & CNT). rewrite E in P. unfold accept_all in P. rewrite Ho in P.
    pose proof (extend_inv s m' rd I I2 O2 FU2) as I3.
    match type of P with gc_loop _ _ _ _ ?x = _ => set (s2 := x) in * end.
    assert (Es2 : s2 = mkCsync (y_commit s) (y_store s ++ rd) m' (y_out s ++ map (fun c => (gc_of s, c)) rd)) by reflexivity.
    assert (G2 : gc_of s2 = gc_of s) by reflexivity.
    destruct (IH (tl envs) s2 s' r) as (A1 & A2 & A3 & A4 & A5 & A6).
    + destruct Fe; cbn; [constructor|assumption].
    + rewrite Es2. exact I3.
    + cbn [s2 with_mgr y_mgr]. change (length (pm_missing m') <= f)%nat. lia.
    + rewrite G2. exact P.
    + split; [exact A1|]. split; [eapply grows_trans; [|exact A2]; split; [rewrite G2; apply N.le_refl|eexists; split; [reflexivity|apply tag_fst]]|].
      split; [exact A3|]. split.
      * intros d. rewrite A4. unfold score. rewrite Es2. cbn [y_out y_mgr]. rewrite map_app, tag_snd, cnt_app.
        specialize (CNT d). lia.
      * rewrite G2 in A5, A6. auto.
  - injection P as <- <-. split; [exact I|]. split; [apply grows_refl|]. auto.
Qed.

Definition arr (e : sev) : list cert := match e with SCerts l => map snd l | SGc _ _ => [] end.
Lemma sstep_ok s e s' r : sound_event e -> (forall c, In c (arr e) -> In c all) -> sinv s -> sstep s e = (s', r) ->
  sinv s' /\ grows s s' /\ fine (Ok tt) r /\
  (forall d, score s d <= score s' d <= score s d + cnt d (arr e))%nat /\
  (Forall (fun c => is_verified c = true) (arr e) -> r <> Err Unverified') /\
  (Forall (fun c => is_verified c = true) (arr e) -> forall c, In c (arr e) -> (1 <= score s' (c_digest c))%nat) /\
  (forall n envs, e = SGc n envs -> forall k ds, a_get rkey_eqb k (pm_missing (y_mgr s')) = Some ds -> gc_of s' < fst k).
Proof.
  intros Hs Ha I P. destruct e as [l|n envs]; cbn [SyncModel.sstep arr sound_event] in *.
  - destruct (process_ok l (Ok tt) s s' r Hs Ha I P) as (A1 & A2 & A3 & A4 & A5 & A6).
    repeat (split; [assumption|]). split; [|split; [exact A6|discriminate]].
    intros F. destruct (A5 F) as [H|H]; [exact H|discriminate].
  - unfold gc_round_event in P. pose proof (see_inv n s I) as I1.
    destruct (gc_loop_ok _ envs (see_commit n s) s' r Hs I1 (Nat.le_refl _) P) as (A1 & A2 & A3 & A4 & A5 & A6).
    split; [exact A1|]. split; [eapply grows_trans; [apply grows_see|exact A2]|]. split; [left; exact A3|].
    assert (Sc : forall d, score s' d = score s d) by (intros d; rewrite A4; reflexivity).
    split; [intros d; rewrite Sc; lia|]. split; [intros _; rewrite A3; discriminate|]. split; [intros _ c []|].
    intros _ _ _ k ds H. rewrite A5. exact (A6 k ds H).
Qed.

Lemma srun_ok : forall evs s, Forall sound_event evs -> (forall c, In c (arrivals evs) -> In c all) -> sinv s ->
  sinv (srun s evs) /\ grows s (srun s evs) /\
  Forall (fine (Ok tt)) (sresults gc_depth is_genesis s evs) /\
  (forall d, score s d <= score (srun s evs) d <= score s d + cnt d (arrivals evs))%nat /\
  (Forall (fun c => is_verified c = true) (arrivals evs) -> Forall (fun r => r <> Err Unverified') (sresults gc_depth is_genesis s evs)) /\
  (Forall (fun c => is_verified c = true) (arrivals evs) ->
     forall c, In c (arrivals evs) -> (1 <= score (srun s evs) (c_digest c))%nat).
Proof.
  induction evs as [|e evs IH]; intros s Fs Ha I.
  - cbn. split; [exact I|]. split; [apply grows_refl|]. split; [constructor|]. split; [intros d; lia|]. split; [constructor|intros _ c []].
  - inversion Fs as [|? ? F1 F2]; subst. cbn [SyncModel.srun sresults].
    assert (AE : arrivals (e :: evs) = arr e ++ arrivals evs) by (destruct e; reflexivity). rewrite AE in *.
    destruct (sstep s e) as [s' r] eqn:P. cbn [fst snd].
    destruct (sstep_ok s e s' r F1 (fun c H => Ha c (proj2 (in_app_iff _ _ _) (or_introl H))) I P) as (A1 & A2 & A3 & A4 & A5 & A6 & _).
    destruct (IH s' F2 (fun c H => Ha c (proj2 (in_app_iff _ _ _) (or_intror H))) A1) as (B1 & B2 & B3 & B4 & B5 & B6).
    split; [exact B1|]. split; [eapply grows_trans; eassumption|]. split; [constructor; assumption|].
    split; [intros d; rewrite cnt_app; specialize (A4 d); specialize (B4 d); lia|].
    split.
    + intros F. apply Forall_app in F as [F3 F4]. constructor; auto.
    + intros F. apply Forall_app in F as [F3 F4]. intros c Hc. apply in_app_iff in Hc as [Hc|Hc]; [|auto].
      specialize (A6 F3 c Hc). specialize (B4 (c_digest c)). lia.
Qed.

(* what the state invariant says about a certificate that is still pending *)
Lemma pending_waits s d p : sinv s -> a_get N.eqb d (pm_pending (y_mgr s)) = Some p ->
  c_digest (pc_cert p) = d /\ UU (pc_cert p) /\ pc_missing p <> [] /\
  forall q, In q (pc_missing p) -> In q (c_parents (pc_cert p)) /\ ~ In q (map c_digest (y_store s)) /\
    exists ds, a_get rkey_eqb (c_round (pc_cert p) - 1, q) (pm_missing (y_mgr s)) = Some ds /\ In d ds.
Proof.
  intros I G. destruct (mi_ent _ _ _ _ _ _ (si_m _ I) d p G) as (A & B & R & C & D). repeat (split; [assumption|]).
  intros q Hq. split; [apply D; exact Hq|]. split.
  - intros Hs. destruct (mi_acc _ _ _ _ _ _ (si_m _ I) d p q G Hq Hs) as [[]|[]].
  - assert (W : waits (y_mgr s) d (c_round (pc_cert p) - 1, q)) by (exists p; cbn; repeat split; [exact G|lia|exact Hq]).
    apply (mi_idx _ _ _ _ _ _ (si_m _ I)) in W as [W|[]]. exact W.
Qed.
End Mgr.
