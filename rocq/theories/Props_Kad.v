(** C63: the persistent store of the discovery network. *)
From Verif Require Import Util KadModel KadSpec KadProofs KadRec KadProv KadHist.
Local Open Scope N_scope.

Section T.
Variable kh : N -> N.
Variable cfg : kcfg.
Variable loads : krec -> bool.
Variables (kd : kind) (node local : N).
Hypothesis kh_inj : forall a b, kh a = kh b -> a = b.
Notation reach := (reach kh cfg loads kd node local).
Notation get := (get kh).
Notation put := (put kh cfg).

(** A lookup answers with the record published last under the key, unless it was withdrawn or has expired; it never panics. *)
Theorem C63_get_exact h t d s : reach h t d s -> forall now k, t <= now -> get d s now k = Some (live_rec now (last_rec loads h k)).
Proof using kh_inj.
  intros R now k L. destruct (reach_inv _ _ _ _ _ _ kh_inj _ _ _ _ R) as [IR _].
  assert (Ek : s_kind s = kd) by apply IR.
  rewrite get_row; rewrite ?Ek; [|eapply ri_key; eauto|apply IR]. f_equal. eapply ri_live; eauto.
Qed.

Lemma in_pos {A} (x : A) l : In x l -> 0 < N.of_nat (length l).
Proof using Type. clear. destruct l; [intros []|intros _; cbn [length]; lia]. Qed.
Lemma in_live_of now t x : In x (flat_map (live_of now) t) <-> exists h, In (h, Some x) t /\ expired (k_exp x) now = false.
Proof using Type.
  clear kh_inj loads cfg. rewrite in_flat_map. split.
  - intros [[h [r|]] [H1 H2]]; unfold live_of in H2; cbn [snd] in H2; [|destruct H2].
    destruct (expired (k_exp r) now) eqn:E; [destruct H2|]. destruct H2 as [<-|[]]. exists h; auto.
  - intros [h [H E]]. exists (h, Some x). split; auto. unfold live_of. cbn [snd]. rewrite E. left; auto.
Qed.
Lemma live_len now t : keyed kh t -> N.of_nat (length (flat_map (live_of now) t)) = tcount (filter (fun e => negb (rexp now e)) t).
Proof using Type.
  clear kh_inj loads cfg. unfold tcount. induction t as [|[h row] t IH]; intros K; [reflexivity|].
  destruct (K (h, row)) as [r [E _]]; [left; auto|]. cbn in E; subst row. cbn [flat_map filter]. rewrite app_length.
  change (live_of now (h, Some r)) with (if expired (k_exp r) now then [] else [r]).
  change (rexp now (h, Some r)) with (expired (k_exp r) now).
  assert (K' : keyed kh t) by (intros e He; apply K; right; auto). specialize (IH K'). destruct (expired (k_exp r) now); cbn [negb length]; lia.
Qed.

(** Listing the records gives each unexpired one exactly once. *)
Theorem C63_records_exact h t d s : reach h t d s -> forall now, t <= now ->
  exists l, records d s now = Some l /\ NoDup (map k_key l) /\ forall r, In r l <-> live_rec now (last_rec loads h (k_key r)) = Some r.
Proof using kh_inj.
  intros R now L. destruct (reach_inv _ _ _ _ _ _ kh_inj _ _ _ _ R) as [[Rk Rn Rl Rs Ry RL Rle Req] _].
  exists (flat_map (live_of now) (recs d kd)). split; [|split].
  - unfold records. rewrite Rk. apply records_of_spec. eapply keyed_some; eauto.
  - assert (ND : NoDup (map fst (recs d kd))) by (apply ssorted_lt_NoDup; exact Rs).
    clear -ND Ry. induction (recs d kd) as [|[h row] t IH]; [constructor|]. cbn [map fst] in ND. apply NoDup_cons_iff in ND as [Hn ND].
    destruct (Ry (h, row)) as [r [E1 E2]]; [left; auto|]. cbn in E1, E2. subst row h. cbn [flat_map]. rewrite map_app.
    assert (K' : keyed kh t) by (intros e He; apply Ry; right; auto).
    apply NoDup_app_intro; auto.
    + unfold live_of. cbn [snd]. destruct (expired (k_exp r) now); cbn [map]; [constructor|]. constructor; [intros []|constructor].
    + intros x Hx Hy. unfold live_of in Hx. cbn [snd] in Hx. destruct (expired (k_exp r) now); [destruct Hx|]. destruct Hx as [<-|[]].
      apply in_map_iff in Hy as [y [Ey Hy]]. apply in_live_of in Hy as [h [Hy _]]. apply Hn. rewrite <- Ey.
      destruct (K' _ Hy) as [z [Ez1 Ez2]]. cbn in Ez1, Ez2. injection Ez1 as <-. rewrite <- Ez2. apply (in_map fst) in Hy. exact Hy.
  - intros r. rewrite in_live_of. rewrite <- RL; auto. split.
    + intros [h0 [Hi He]]. destruct (Ry _ Hi) as [z [E1 E2]]. cbn in E1, E2. injection E1 as <-. subst h0.
      apply bm_lookup_In in Hi; auto. rewrite Hi. cbn. rewrite He. reflexivity.
    + destruct (bm_lookup (kh (k_key r)) (recs d kd)) as [[y|]|] eqn:E; cbn; [|discriminate..].
      destruct (expired (k_exp y) now) eqn:X; [discriminate|]. intros Z; injection Z as ->. exists (kh (k_key r)). split; auto. apply bm_lookup_In; auto.
Qed.

(** Publishing never panics. It fails for a value that is too large, or when the store is full: only if no record is stored
    under the key and the cap is reached by unexpired records. If records are only withdrawn while they are there, it
    succeeds exactly for a small enough value under a key that has an unexpired record, or while fewer than the cap are unexpired. *)
Theorem C63_put_decided h t d s r : reach h t d s ->
  exists d' s' e live, put d s t r = Some (d', s', e) /\ records d s t = Some live /\
  (e = None \/ e = Some ValueTooLarge \/ e = Some MaxRecords) /\
  (e = Some ValueTooLarge <-> c_max_value cfg <= k_len r) /\
  (e = Some MaxRecords -> k_len r < c_max_value cfg /\ get d s t (k_key r) = Some None /\ c_max_records cfg <= N.of_nat (length live)) /\
  (careful h -> (e = None <-> k_len r < c_max_value cfg /\ ((exists x, get d s t (k_key r) = Some (Some x)) \/ N.of_nat (length live) < c_max_records cfg))).
Proof using kh_inj.
  intros R. destruct (reach_inv _ _ _ _ _ _ kh_inj _ _ _ _ R) as [[Rk Rn Rl Rs Ry RL Rle Req] _].
  destruct (put_cases kh cfg d s t r) as (d' & s' & e & P & _ & _ & _ & _ & _ & C); [rewrite Rk; auto..|].
  exists d', s', e, (flat_map (live_of t) (recs d kd)). split; [exact P|].
  assert (GR : get d s t (k_key r) = Some (rowlive t (bm_lookup (kh (k_key r)) (recs d kd)))) by (rewrite get_row; rewrite ?Rk; auto).
  split; [unfold records; rewrite Rk; apply records_of_spec; eapply keyed_some; eauto|].
  rewrite GR, live_len; auto. pose proof (filter_split_len (rexp t) (recs d kd)) as Cn. rewrite Rk in C. cbv zeta in C.
  set (h0 := kh (k_key r)) in *. set (tc := tcount (recs d kd)) in *. set (ex := tcount (filter (rexp t) (recs d kd))) in *. set (lv := tcount (filter _ _)) in *.
  assert (AB : bm_lookup h0 (recs d kd) = None -> rowlive t (bm_lookup h0 (recs d kd)) = None) by (intros ->; reflexivity).
  destruct C as [(L & -> & Ht & Hn)|[(L & -> & E & Ht & Hn)|[(L & -> & E & F & Ht & Hn)|[(L & -> & E & F & G & Ht & Hn)|(L & -> & E & F & G & Ht & Hn)]]]].
  - split; [auto|]. split; [tauto|]. split; [discriminate|]. intros _. split; [discriminate|]. intros [X _]. lia.
  - split; [auto|]. split; [split; [discriminate|lia]|]. split; [discriminate|]. intros Cf. split; auto. intros _. split; auto.
    destruct (bm_lookup h0 (recs d kd)) as [row|] eqn:Z; [|congruence]. assert (Z' := Z). apply bm_lookup_In in Z'; auto.
    destruct (Ry _ Z') as [y [E1 _]]. cbn in E1. subst row. cbn [rowlive live_rec]. destruct (expired (k_exp y) t) eqn:X; [|left; exists y; auto].
    right. destruct (Req Cf) as [Q1 Q2]. assert (0 < ex); [|lia].
    apply (in_pos (h0, Some y)). apply filter_In; auto.
  - split; [auto|]. split; [split; [discriminate|lia]|]. split; [discriminate|]. intros Cf. split; auto. intros _. split; auto.
    right. destruct (Req Cf) as [Q1 Q2]. lia.
  - split; [auto|]. split; [split; [discriminate|lia]|]. split; [discriminate|]. intros Cf. split; auto. intros _. split; auto.
    right. destruct (Req Cf) as [Q1 Q2]. lia.
  - split; [auto|]. split; [split; [discriminate|lia]|]. split.
    + intros _. split; auto. split; [rewrite AB; auto|]. lia.
    + intros Cf. split; [discriminate|]. destruct (Req Cf) as [Q1 Q2]. intros [_ [[x X]|X]]; [rewrite AB in X; auto; discriminate X|lia].
Qed.

(** Then no more records are ever listed, or kept on disk, than the cap. *)
Theorem C63_records_bounded h t d s : reach h t d s -> careful h ->
  tcount (recs d kd) <= c_max_records cfg /\
  forall now l, records d s now = Some l -> N.of_nat (length l) <= c_max_records cfg.
Proof using kh_inj.
  intros R Cf. destruct (reach_inv _ _ _ _ _ _ kh_inj _ _ _ _ R) as [[Rk Rn Rl Rs Ry RL Rle Req] _]. destruct (Req Cf) as [Q1 Q2].
  split; auto. intros now l E. unfold records in E. rewrite Rk, records_of_spec in E; [|eapply keyed_some; eauto]. injection E as <-.
  rewrite live_len; auto. pose proof (filter_split_len (rexp now) (recs d kd)). lia.
Qed.

(** The providers of a key: one for every peer whose last accepted announcement was not withdrawn and has not expired. *)
Theorem C63_providers_exact h t d s : reach h t d s -> forall now k, t <= now ->
  (forall x, In x (providers kh d s now k) <-> live_prov now (last_prov h k (p_peer x)) = Some x) /\
  NoDup (map p_peer (providers kh d s now k)) /\
  N.of_nat (length (providers kh d s now k)) <= N.max 1 (c_max_per_key cfg) /\
  forall x, In x (providers kh d s now k) -> p_key x = k.
Proof using kh_inj.
  intros R now k L. split; [intros x; eapply providers_In; eauto|].
  destruct (reach_inv _ _ _ _ _ _ kh_inj _ _ _ _ R) as [IR IP].
  assert (PK : forall x, In x (providers kh d s now k) -> p_key x = k).
  { intros x H. apply (providers_In kh cfg loads kd node local kh_inj h t d s now k x R L) in H.
    destruct (last_prov h k (p_peer x)) as [y|] eqn:E; [|discriminate H]. cbn in H. destruct (expired _ _); [discriminate H|]. injection H as ->.
    eapply last_prov_key; eauto. }
  assert (Ek : s_kind s = kd) by apply IR. rewrite (providers_row kh kd d s now k Ek) in *. destruct (bm_lookup (kh k) (provs d kd)) as [[l|]|] eqn:E.
  - destruct (pi_row _ _ _ _ _ _ _ IP _ _ E) as (_ & ND & _ & Ln). split; [|split; [|exact PK]].
    + clear -ND. induction l as [|x l IH]; [constructor|]. cbn [map] in ND. apply NoDup_cons_iff in ND as [Hn ND]. cbn [filter].
      destruct (negb _); auto. cbn [map]. constructor; auto. intros X. apply Hn. apply in_map_iff in X as [y [Ey Hy]]. apply filter_In in Hy as [Hy _].
      rewrite <- Ey. apply in_map; auto.
    + pose proof (filter_len_le (fun r => negb (expired (p_exp r) now)) l). lia.
  - split; [constructor|]. split; [cbn; lia|]. intros x [].
  - split; [constructor|]. split; [cbn; lia|]. intros x [].
Qed.

(** What the node republishes is its own announcement under its own key, and nothing a peer sent. *)
Theorem C63_provided_exact h t d s : reach h t d s -> forall now, t <= now ->
  provided kh d s now = match live_prov now (last_prov h node local) with Some x => [x] | None => [] end.
Proof using kh_inj.
  intros R now L. destruct (reach_inv _ _ _ _ _ _ kh_inj _ _ _ _ R) as [IR IP].
  destruct (C63_providers_exact h t d s R now node L) as (A & B & _ & _).
  unfold provided. rewrite (ri_node _ _ _ _ _ _ _ _ _ _ IR), (ri_local _ _ _ _ _ _ _ _ _ _ IR).
  destruct (live_prov now (last_prov h node local)) as [x|] eqn:E.
  - assert (Px : p_peer x = local).
    { destruct (last_prov h node local) as [y|] eqn:Y; [|discriminate E]. cbn in E. destruct (expired _ _); [discriminate E|]. injection E as ->. eapply last_prov_key; eauto. }
    assert (Hx : In x (providers kh d s now node)) by (apply A; rewrite Px; auto).
    assert (U : forall y, In y (providers kh d s now node) -> p_peer y = local -> y = x).
    { intros y Hy Ey. apply A in Hy. rewrite Ey in Hy. congruence. }
    revert B Hx U. generalize (providers kh d s now node) as l. clear -Px. induction l as [|y l IH]; intros ND Hx U; [destruct Hx|].
    cbn [map] in ND. apply NoDup_cons_iff in ND as [Hn ND]. cbn [filter]. destruct (N.eqb_spec (p_peer y) local) as [Ey|Ny].
    + assert (y = x) by (apply U; [left|]; auto). subst y. f_equal. assert (N0 : forall z, In z l -> p_peer z <> local).
      { intros z Hz Ez. apply Hn. rewrite Px, <- Ez. apply in_map; auto. }
      clear -N0. induction l as [|z l IH]; [reflexivity|]. cbn [filter]. destruct (N.eqb_spec (p_peer z) local) as [Ez|]; [destruct (N0 z); [left|]; auto|].
      apply IH. intros w Hw. apply N0; right; auto.
    + destruct Hx as [->|Hx]; [congruence|]. apply IH; auto. intros z Hz. apply U; right; auto.
  - assert (N0 : forall z, In z (providers kh d s now node) -> p_peer z <> local).
    { intros z Hz Ez. apply A in Hz. rewrite Ez, E in Hz. discriminate Hz. }
    revert N0. generalize (providers kh d s now node) as l. clear. induction l as [|z l IH]; intros N0; [reflexivity|]. cbn [filter].
    destruct (N.eqb_spec (p_peer z) local) as [Ez|]; [destruct (N0 z); [left|]; auto|]. apply IH. intros w Hw. apply N0; right; auto.
Qed.

Lemma NoDup_keys_of (t : ptab) : bm_sorted t -> (forall e, In e t -> exists k, fst e = kh k) ->
  exists ks, NoDup ks /\ length ks = length t /\ forall k, In k ks <-> exists row, In (kh k, row) t.
Proof using kh_inj.
  intros S. assert (ND : NoDup (map fst t)) by (apply ssorted_lt_NoDup; exact S). clear S. induction t as [|[h row] t IH]; intros K.
  - exists []. split; [constructor|]. split; auto. intros k. split; [intros []|intros [row []]].
  - cbn [map] in ND. apply NoDup_cons_iff in ND as [Hn ND]. destruct IH as (ks & A & B & C); auto; [intros e He; apply K; right; auto|].
    destruct (K (h, row)) as [k E]; [left; auto|]. cbn in E, Hn. subst h. exists (k :: ks). split; [|split].
    + constructor; auto. intros X. apply C in X as [row' X]. apply Hn. apply (in_map fst) in X. exact X.
    + cbn [length]. congruence.
    + intros k'. split.
      * intros [<-|X]; [exists row; left; auto|]. apply C in X as [row' X]. exists row'. right; auto.
      * intros [row' [X|X]]; [injection X as X _; apply kh_inj in X; left; auto|]. right. apply C. exists row'; auto.
Qed.

(** When an announcement is accepted: always if the peer's last one is unexpired; always while the key's unexpired ones are
    at least one and below the cap; for a key without unexpired ones it is refused only if as many other keys as the cap have
    some; a new peer is refused on a key that has the full number. *)
Theorem C63_announce_decided h t d s r d' s' e : reach h t d s -> add_provider kh cfg d s t r = (d', s', e) ->
  let live := providers kh d s t (p_key r) in
  (e = None \/ e = Some MaxProvidedKeys) /\
  (In (p_peer r) (map p_peer live) -> e = None) /\
  (live <> [] -> N.of_nat (length live) < c_max_per_key cfg -> e = None) /\
  (live = [] -> 0 < c_max_per_key cfg -> e <> None ->
     exists ks, NoDup ks /\ N.of_nat (length ks) = c_max_keys cfg /\ forall k, In k ks -> k <> p_key r /\ providers kh d s t k <> []) /\
  (live <> [] -> last_prov h (p_key r) (p_peer r) = None -> c_max_per_key cfg <= N.of_nat (length live) -> e = Some MaxProvidedKeys).
Proof using kh_inj.
  intros R H. destruct (reach_inv _ _ _ _ _ _ kh_inj _ _ _ _ R) as [IR IP]. assert (Ek : s_kind s = kd) by apply IR.
  destruct IP as [Ps Pr Pk PL PS Pe Ple].
  destruct (add_cases kh cfg kd d s t r Ek Ps) as (d2 & s2 & e2 & A & _ & _ & _ & _ & _ & C). rewrite H in A. injection A as <- <- <-.
  cbv zeta. rewrite (providers_row kh kd d s t (p_key r) Ek).
  pose proof (filter_split_len (fun x => droppable t (snd x)) (provs d kd)) as Cn.
  assert (ME : forall l e', merge_provider cfg t l r = inr e' -> e' = MaxProvidedKeys /\ ~ In (p_peer r) (map p_peer l) /\ c_max_per_key cfg <= N.of_nat (length (filter (fun r0 => negb (expired (p_exp r0) t)) l))).
  { intros l e' M. unfold merge_provider in M. destruct (existsb _ l) eqn:X; [discriminate M|].
    destruct (N.ltb_spec (N.of_nat (length (filter (fun r0 => negb (expired (p_exp r0) t)) l))) (c_max_per_key cfg)) as [G|G]; [discriminate M|].
    injection M as <-. split; auto. split; auto. intros Y. apply in_map_iff in Y as [y [Ey Hy]].
    assert (existsb (fun x => p_peer x =? p_peer r) l = true); [|congruence]. apply existsb_exists. exists y. rewrite Ey, N.eqb_refl. auto. }
  assert (MI : forall l l', merge_provider cfg t l r = inl l' -> ~ In (p_peer r) (map p_peer l) -> N.of_nat (length (filter (fun r0 => negb (expired (p_exp r0) t)) l)) < c_max_per_key cfg).
  { intros l l' M Nin. unfold merge_provider in M. destruct (existsb _ l) eqn:X.
    - apply existsb_exists in X as [y [Hy Ey]]. apply N.eqb_eq in Ey. destruct Nin. rewrite <- Ey. apply in_map; auto.
    - destruct (N.ltb_spec (N.of_nat (length (filter (fun r0 => negb (expired (p_exp r0) t)) l))) (c_max_per_key cfg)) as [G|G]; [auto|discriminate M]. }
  assert (SUB : forall l x, In x (map p_peer (filter (fun r0 => negb (expired (p_exp r0) t)) l)) -> In x (map p_peer l)).
  { intros l x X. apply in_map_iff in X as [y [Ey Hy]]. apply filter_In in Hy as [Hy _]. subst. apply in_map; auto. }
  destruct C as [(l & e' & E & M & -> & Et & En)|[(l & l' & E & M & -> & Et & En)|[(E & -> & Et & En)|[(E & F & -> & Et & En)|[(E & F & G & -> & Et & En)|(E & F & G & -> & Et & En)]]]]].
  - rewrite E. destruct (ME _ _ M) as (-> & M1 & M2). split; [auto|]. split; [intros X; destruct M1; auto|]. split; [intros; lia|]. split; [|auto].
    intros X Y _. rewrite X in M2. cbn in M2. lia.
  - rewrite E. split; [auto|]. split; [auto|]. split; [auto|]. split; [congruence|].
    intros Ne LP Full. exfalso. assert (Nin : ~ In (p_peer r) (map p_peer l)).
    { intros X. apply in_map_iff in X as [y [Ey Hy]]. destruct (Pr _ _ E) as (_ & ND & _ & _).
      pose proof (find_peer l y ND Hy) as Fy. rewrite Ey in Fy. pose proof (PS (p_key r) (p_peer r) y) as Q. rewrite E in Q. cbn [frow] in Q. rewrite Q in LP; auto. discriminate LP. }
    pose proof (MI _ _ M Nin). lia.
  - rewrite E. split; [auto|]. split; [auto|]. split; [auto|]. split; [congruence|]. intros X. destruct X. reflexivity.
  - rewrite E. split; [auto|]. split; [auto|]. split; [auto|]. split; [congruence|]. intros X. destruct X. reflexivity.
  - rewrite E. split; [auto|]. split; [auto|]. split; [auto|]. split; [congruence|]. intros X. destruct X. reflexivity.
  - rewrite E. split; [auto|]. split; [intros []|]. split; [intros X; destruct X; reflexivity|]. split; [|auto].
    intros _ _ _. set (t1 := filter (fun x => negb (droppable t (snd x))) (provs d kd)) in *.
    destruct (NoDup_keys_of t1) as (ks & K1 & K2 & K3).
    + apply sorted_filter; auto.
    + intros [h' row] He. apply filter_In in He as [He _]. cbn [fst]. apply Pk. apply bm_lookup_In in He; auto. rewrite He. discriminate.
    + exists ks. split; auto. split.
      * rewrite K2. fold (tcount t1). lia.
      * intros k Hk. apply K3 in Hk as [row Hk]. apply filter_In in Hk as [Hk Dk]. apply bm_lookup_In in Hk; auto. split.
        -- intros ->. congruence.
        -- rewrite (providers_row kh kd d s t k Ek), Hk. cbn [snd] in Dk. destruct row as [l|]; [|discriminate Dk].
           destruct (Pr _ _ Hk) as (Ne & _ & _ & _). destruct l as [|x l]; [congruence|]. intros Z.
           assert (droppable t (Some (x :: l)) = true); [|rewrite H0 in Dk; discriminate Dk].
           cbn [droppable]. apply forallb_forall. intros y Hy. destruct (expired (p_exp y) t) eqn:Ey; auto.
           assert (In y []); [|destruct H0]. rewrite <- Z. apply filter_In. rewrite Ey. auto.
Qed.

(** No more keys than the cap ever have providers. *)
Theorem C63_provided_keys_bounded h t d s : reach h t d s -> forall now ks, NoDup ks ->
  (forall k, In k ks -> providers kh d s now k <> []) -> N.of_nat (length ks) <= c_max_keys cfg.
Proof using kh_inj.
  intros R now ks ND Hk. destruct (reach_inv _ _ _ _ _ _ kh_inj _ _ _ _ R) as [IR IP]. assert (Ek : s_kind s = kd) by apply IR.
  destruct IP as [Ps Pr Pk PL PS Pe Ple]. assert (length ks <= length (provs d kd))%nat; [|unfold tcount in Ple; lia].
  rewrite <- (map_length kh ks), <- (map_length fst (provs d kd)). apply NoDup_incl_length.
  - apply NoDup_map_intro; auto.
  - intros x Hx. apply in_map_iff in Hx as [k [<- Hx]]. apply Hk in Hx. rewrite (providers_row kh kd d s now k Ek) in Hx.
    destruct (bm_lookup (kh k) (provs d kd)) as [row|] eqn:E; [|congruence]. apply bm_lookup_In in E; auto. apply (in_map fst) in E. exact E.
Qed.
End T.

Section Any.
Variable kh : N -> N.
Variable cfg : kcfg.
Variable loads : krec -> bool.

Definition same_kind (a b : kind) : bool := match a, b with Primary, Primary => true | Worker _, Worker _ => true | _, _ => false end.
Lemma recs_other d a b t : same_kind a b = false -> recs (set_recs d a t) b = recs d b.
Proof using Type. destruct a, b; intros H; try discriminate H; reflexivity. Qed.
Lemma provs_other d a b t : same_kind a b = false -> provs (set_provs d a t) b = provs d b.
Proof using Type. destruct a, b; intros H; try discriminate H; reflexivity. Qed.
Lemma fold_remove_any k bs : forall d s, same_kind (s_kind s) k = false ->
  let ds := fold_left (fun ds r => remove kh (fst ds) (snd ds) (k_key r)) bs (d, s) in
  s_kind (snd ds) = s_kind s /\ recs (fst ds) k = recs d k /\ forall k', provs (fst ds) k' = provs d k'.
Proof using Type.
  induction bs as [|r bs IH]; intros d s H; [cbn; auto|]. cbn [fold_left].
  destruct (IH (fst (remove kh d s (k_key r))) (snd (remove kh d s (k_key r)))) as (A & B & C); [exact H|].
  cbn zeta. cbn [fst snd]. rewrite <- surjective_pairing in A, B, C. split; [exact A|]. split.
  - rewrite B. unfold remove. cbn [fst]. apply recs_other; auto.
  - intros k'. rewrite C. unfold remove. cbn [fst]. apply provs_set_recs.
Qed.

(** The primary network's store and the worker networks' never touch each other's records or providers, whatever is in the database. *)
Theorem C63_networks_separate d s k now : same_kind (s_kind s) k = false ->
  let keeps (d' : kdb) := recs d' k = recs d k /\ provs d' k = provs d k in
  (forall r d' s' e, put kh cfg d s now r = Some (d', s', e) -> keeps d') /\
  (forall key, keeps (fst (remove kh d s key))) /\
  (forall r, keeps (fst (fst (add_provider kh cfg d s now r)))) /\
  (forall key p, keeps (fst (remove_provider kh d s key p))) /\
  (forall node local d' s', start kh loads d (s_kind s) node local now = Some (d', s') -> keeps d').
Proof using Type.
  intros K keeps.
  assert (KR : forall d0 t, keeps d0 -> keeps (set_recs d0 (s_kind s) t)).
  { intros d0 t [A B]. split; [rewrite recs_other; auto|rewrite provs_set_recs; auto]. }
  assert (KP : forall d0 t, keeps d0 -> keeps (set_provs d0 (s_kind s) t)).
  { intros d0 t [A B]. split; [rewrite recs_set_provs; auto|rewrite provs_other; auto]. }
  assert (K0 : keeps d) by (split; reflexivity).
  split; [|split; [|split; [|split]]].
  - intros r d' s' e H. unfold put in H. destruct (c_max_value cfg <=? k_len r); [injection H as <- <- <-; auto|].
    destruct (bm_lookup (kh (k_key r)) (recs d (s_kind s))); [injection H as <- <- <-; auto|].
    destruct (c_max_records cfg <=? s_nrec s); [|injection H as <- <- <-; auto].
    unfold evict_expired_records in H. destruct (expired_keys now (recs d (s_kind s))) as [ks|]; [|discriminate H]. cbn [s_nrec set_nrec s_kind] in H.
    destruct (c_max_records cfg <=? _); injection H as <- <- <-; auto.
  - intros key. unfold remove. cbn [fst]. auto.
  - intros r. unfold add_provider. destruct (bm_lookup (kh (p_key r)) (provs d (s_kind s))) as [row|].
    + destruct (match row with Some existing => merge_provider cfg now existing r | None => inl [r] end); cbn [fst]; auto.
    + destruct (c_max_keys cfg <=? s_nprov s).
      * unfold evict_expired_providers. cbn [s_nprov set_nprov s_kind]. destruct (_ <? c_max_keys cfg); cbn [fst]; auto.
      * destruct (s_nprov s <? c_max_keys cfg); cbn [fst]; auto.
  - intros key p. unfold remove_provider. destruct (bm_lookup (kh key) (provs d (s_kind s))) as [row|]; [|cbn [fst]; auto].
    destruct (match row with Some l => filter (fun r => negb (p_peer r =? p)) l | None => [] end); cbn [fst]; auto.
  - intros node local d' s' H. unfold start in H. destruct (records d (new_store d (s_kind s) node local) now) as [l|]; [|discriminate H].
    pose proof (fold_remove_any k (filter (fun r => negb (loads r)) l) d (new_store d (s_kind s) node local) K) as F. cbv zeta in F.
    destruct (fold_left _ _ _) as [d1 s1]. cbn [fst snd] in F. destruct F as (F1 & F2 & F3).
    assert (H' : scrub_corrupt_providers d1 s1 = (d', s')) by congruence. unfold scrub_corrupt_providers in H'. injection H' as <- _. rewrite F1.
    cbn [new_store s_kind]. split; [rewrite recs_set_provs; auto|rewrite provs_other; auto].
Qed.

(** Opening the store panics exactly if some record on disk does not decode; damaged providers never stop it, and are purged while the others stay. *)
Theorem C63_start_tolerates d kd node local now : bm_sorted (recs d kd) -> bm_sorted (provs d kd) ->
  (start kh loads d kd node local now = None <-> exists h, In (h, None) (recs d kd)) /\
  forall d' s', start kh loads d kd node local now = Some (d', s') ->
    (forall h l, bm_lookup h (provs d' kd) = Some (Some l) <-> bm_lookup h (provs d kd) = Some (Some l)) /\
    (forall h, bm_lookup h (provs d' kd) <> Some None) /\ s_nprov s' = tcount (provs d' kd).
Proof using Type.
  intros Sr Sp. assert (G : start kh loads d kd node local now = None <-> exists h, In (h, None) (recs d kd)).
  { rewrite <- (records_of_none now). unfold start, records. cbn [new_store s_kind].
    destruct (records_of now (recs d kd)); [|tauto]. destruct (fold_left _ _ _) as [d1 s1]. split; discriminate. }
  split; auto. intros d' s' H. unfold start in H. destruct (records d (new_store d kd node local) now) as [l|] eqn:E; [|discriminate H].
  assert (F : forall bs d0 s0, s_kind s0 = kd ->
    let ds := fold_left (fun ds r => remove kh (fst ds) (snd ds) (k_key r)) bs (d0, s0) in
    s_kind (snd ds) = kd /\ s_nprov (snd ds) = s_nprov s0 /\ provs (fst ds) kd = provs d0 kd).
  { induction bs as [|r bs IH]; intros d0 s0 H0; [cbn; auto|]. cbn [fold_left].
    destruct (IH (fst (remove kh d0 s0 (k_key r))) (snd (remove kh d0 s0 (k_key r)))) as (A & B & C); [exact H0|].
    cbn zeta. cbn [fst snd]. rewrite <- surjective_pairing in A, B, C. split; [exact A|]. split; [rewrite B; reflexivity|]. rewrite C. unfold remove. cbn [fst]. apply provs_set_recs. }
  specialize (F (filter (fun r => negb (loads r)) l) d (new_store d kd node local) eq_refl). cbv zeta in F.
  destruct (fold_left _ _ _) as [d1 s1]. cbn [fst snd] in F. destruct F as (F1 & F2 & F3). cbn [new_store s_nprov] in F2.
  assert (H' : scrub_corrupt_providers d1 s1 = (d', s')) by congruence. clear H. unfold scrub_corrupt_providers in H'. rewrite F1, F3, F2 in H'.
  change (fun e => match snd e with Some _ => false | None => true end) with undecodable in H'.
  rewrite tdel_all_filter in H'; auto. injection H' as <- <-. rewrite provs_set_provs. cbn [s_nprov set_nprov].
  split; [|split].
  - intros h l'. rewrite lookup_filter; auto. destruct (bm_lookup h (provs d kd)) as [[l0|]|]; cbn; split; auto; discriminate.
  - intros h. rewrite lookup_filter; auto. destruct (bm_lookup h (provs d kd)) as [[l0|]|]; discriminate.
  - rewrite map_length. pose proof (filter_split_len undecodable (provs d kd)). unfold tcount in *. lia.
Qed.

(** A record a peer sends is stored only if it names a publisher, neither peer is banned, it is valid, and it is strictly newer
    than an unexpired record of the key; a request that does not meet this changes nothing. The source is penalised exactly for
    a record with no publisher, or (nobody being banned) an invalid one. *)
Theorem C63_put_request_exact (valid : krec -> bool) (stamp : krec -> option N) d s now banned source r d' s' pen e :
  put_request kh cfg valid stamp d s now banned source r = Some (d', s', pen, e) ->
  let admitted := (exists p, k_pub r = Some p /\ banned p = false) /\ banned source = false in
  let newer := get kh d s now (k_key r) = Some None \/
    exists x a b, get kh d s now (k_key r) = Some (Some x) /\ stamp x = Some a /\ stamp r = Some b /\ a < b in
  (admitted /\ valid r = true /\ newer -> put kh cfg d s now r = Some (d', s', e)) /\
  (~ (admitted /\ valid r = true /\ newer) -> d' = d /\ s' = s /\ e = None) /\
  (pen = true <-> k_pub r = None \/ (admitted /\ valid r = false)).
Proof using Type.
  clear loads. intros H admitted newer. unfold put_request in H.
  destruct (k_pub r) as [p|] eqn:P.
  2:{ cbn in H. injection H as <- <- <- <-. split; [intros [[[p [X _]] _] _]; discriminate X|]. split; [auto|]. split; auto. }
  destruct (banned p) eqn:Bp.
  1:{ cbn in H. injection H as <- <- <- <-. split; [intros [[[q [X Y]] _] _]; injection X as <-; congruence|]. split; [auto|].
      split; [discriminate|]. intros [X|[[[q [X Y]] _] _]]; [discriminate X|injection X as <-; congruence]. }
  destruct (banned source) eqn:Bs.
  1:{ cbn in H. injection H as <- <- <- <-. split; [intros [[_ X] _]; discriminate X|]. split; [auto|].
      split; [discriminate|]. intros [X|[[_ X] _]]; discriminate X. }
  cbn [orb] in H. assert (Ad : admitted) by (split; [exists p|]; auto).
  destruct (valid r) eqn:V.
  2:{ injection H as <- <- <- <-. split; [intros [_ [X _]]; discriminate X|]. split; [auto|]. split; auto. }
  unfold is_newer_record in H. destruct (get kh d s now (k_key r)) as [[x|]|] eqn:G; [|..|discriminate H].
  - destruct (match stamp x, stamp r with Some a, Some b => a <? b | _, _ => false end) eqn:Nw.
    + destruct (put kh cfg d s now r) as [[[d2 s2] e2]|] eqn:PP; [|discriminate H]. injection H as <- <- <- <-. split; [auto|]. split.
      * intros X. destruct X. split; auto. split; auto. right. destruct (stamp x) as [a|] eqn:Sx; [|discriminate Nw]. destruct (stamp r) as [b|] eqn:Sr; [|discriminate Nw].
        exists x, a, b. apply N.ltb_lt in Nw. auto.
      * split; [discriminate|]. intros [X|[_ X]]; discriminate X.
    + injection H as <- <- <- <-. split.
      * intros [_ [_ [X|(y & a & b & X & Sy & Sr & L)]]]; [discriminate X|]. injection X as <-. rewrite Sy, Sr in Nw. apply N.ltb_ge in Nw. lia.
      * split; [auto|]. split; [discriminate|]. intros [X|[_ X]]; discriminate X.
  - destruct (put kh cfg d s now r) as [[[d2 s2] e2]|] eqn:PP; [|discriminate H]. injection H as <- <- <- <-. split; [auto|]. split.
    + intros X. destruct X. split; auto. split; auto. left; auto.
    + split; [discriminate|]. intros [X|[_ X]]; discriminate X.
Qed.

(** So while a record is unexpired, no request of a peer replaces it by one that is not strictly newer, or touches another key's. *)
Theorem C63_requests_only_renew (valid : krec -> bool) (stamp : krec -> option N) kd node local h d s now banned source r d' s' pen e :
  (forall a b, kh a = kh b -> a = b) -> reach kh cfg loads kd node local h now d s ->
  put_request kh cfg valid stamp d s now banned source r = Some (d', s', pen, e) ->
  forall k x, get kh d s now k = Some (Some x) ->
    get kh d' s' now k = Some (Some x) \/
    (k = k_key r /\ get kh d' s' now k = Some (live_rec now (Some r)) /\ exists a b, stamp x = Some a /\ stamp r = Some b /\ a < b).
Proof using Type.
  intros Inj R H k x G. destruct (C63_put_request_exact _ _ _ _ _ _ _ _ _ _ _ _ H) as (A & B & _). cbv zeta in A, B.
  assert (D : put kh cfg d s now r = Some (d', s', e) /\ (get kh d s now (k_key r) = Some None \/
    exists x a b, get kh d s now (k_key r) = Some (Some x) /\ stamp x = Some a /\ stamp r = Some b /\ a < b) \/ d' = d /\ s' = s).
  { clear A B. unfold put_request in H. destruct (_ || banned source); [injection H as <- <- _ _; auto|]. destruct (valid r); [|injection H as <- <- _ _; auto].
    unfold is_newer_record in H. destruct (get kh d s now (k_key r)) as [[y|]|] eqn:G'; [|..|discriminate H].
    - destruct (stamp y) as [a|] eqn:Sy; [|injection H as <- <- _ _; auto]. destruct (stamp r) as [b|] eqn:Sr; [|injection H as <- <- _ _; auto].
      destruct (N.ltb_spec a b); [|injection H as <- <- _ _; auto]. destruct (put kh cfg d s now r) as [[[d2 s2] e2]|] eqn:P; [|discriminate H].
      injection H as <- <- _ <-. left. split; auto. right. exists y, a, b. auto.
    - destruct (put kh cfg d s now r) as [[[d2 s2] e2]|] eqn:P; [|discriminate H]. injection H as <- <- _ <-. left. auto. }
  destruct D as [[P Nw]|[-> ->]]; [|left; auto].
  pose proof (r_put kh cfg loads kd node local _ _ _ _ _ _ _ _ R P) as R'.
  rewrite (C63_get_exact kh cfg loads kd node local Inj _ _ _ _ R' now k) by lia.
  rewrite (C63_get_exact kh cfg loads kd node local Inj _ _ _ _ R now k) in G by lia.
  cbn [last_rec]. destruct e as [e|]; [left; auto|]. destruct (N.eqb_spec (k_key r) k) as [<-|Nk]; [|left; auto].
  destruct Nw as [Nw|(y & a & b & Nw & Sy & Sr & L)].
  - rewrite (C63_get_exact kh cfg loads kd node local Inj _ _ _ _ R now (k_key r)) in Nw by lia. congruence.
  - rewrite (C63_get_exact kh cfg loads kd node local Inj _ _ _ _ R now (k_key r)) in Nw by lia. right. split; auto. split; auto. exists a, b. split; [congruence|auto].
Qed.

(** An inbound announcement of a banned peer changes nothing; any other is treated as an announcement made here. *)
Theorem C63_announce_request_exact kd node local h d s now banned r d' s' e : reach kh cfg loads kd node local h now d s ->
  add_provider_request kh cfg d s now banned r = (d', s', e) ->
  ((r = None \/ exists x, r = Some x /\ banned (p_peer x) = true) -> d' = d /\ s' = s /\ e = None) /\
  forall x, r = Some x -> banned (p_peer x) = false -> reach kh cfg loads kd node local (EAdd x e :: h) now d' s'.
Proof using Type.
  intros R H. unfold add_provider_request in H. split.
  - intros [->|[x [-> B]]]; [|rewrite B in H]; injection H as <- <- <-; auto.
  - intros x -> B. rewrite B in H. eapply r_add; eauto.
Qed.
End Any.

(** What [live] means in all these statements: the expiry, if there is one, lies strictly in the future. *)
Theorem C63_live_means now :
  (forall r, live_rec now (Some r) = Some r <-> (forall e, k_exp r = Some e -> now < e)) /\
  (forall r, live_prov now (Some r) = Some r <-> (forall e, p_exp r = Some e -> now < e)) /\
  (forall o, live_rec now o = o \/ live_rec now o = None) /\ (forall o, live_prov now o = o \/ live_prov now o = None).
Proof.
  assert (X : forall o, expired o now = false <-> forall e, o = Some e -> now < e).
  { intros [e|]; cbn.
    - rewrite N.leb_gt. split; [intros H e' E; injection E as <-; auto|auto].
    - split; auto. discriminate. }
  repeat split.
  - intros H. apply X. cbn in H. destruct (expired (k_exp r) now); [discriminate H|auto].
  - intros H. apply X in H. cbn. rewrite H. auto.
  - intros H. apply X. cbn in H. destruct (expired (p_exp r) now); [discriminate H|auto].
  - intros H. apply X in H. cbn. rewrite H. auto.
  - intros [r|]; cbn; auto. destruct (expired (k_exp r) now); auto.
  - intros [r|]; cbn; auto. destruct (expired (p_exp r) now); auto.
Qed.
