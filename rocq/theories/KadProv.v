(** C63: the provider announcements of a history. *)
From Verif Require Import Util KadModel KadSpec KadProofs.
Local Open Scope N_scope.

Section S.
Variable kh : N -> N.
Variable cfg : kcfg.
Variables (kd : kind).
Hypothesis kh_inj : forall a b, kh a = kh b -> a = b.

Definition frow (x : option (option (list kprov))) (p : N) : option kprov :=
  match x with Some (Some l) => find (fun r => p_peer r =? p) l | _ => None end.
Definition good_row (h : N) (l : list kprov) : Prop :=
  l <> [] /\ NoDup (map p_peer l) /\ (forall r, In r l -> kh (p_key r) = h) /\ N.of_nat (length l) <= N.max 1 (c_max_per_key cfg).
Record pinv (h : list event) (t : N) (d : kdb) (s : kstore) : Prop := {
  pi_sort : bm_sorted (provs d kd);
  pi_row : forall h' l, bm_lookup h' (provs d kd) = Some (Some l) -> good_row h' l;
  pi_key : forall h', bm_lookup h' (provs d kd) <> None -> exists k, h' = kh k;
  pi_live : forall k p now, t <= now -> live_prov now (frow (bm_lookup (kh k) (provs d kd)) p) = live_prov now (last_prov h k p);
  pi_src : forall k p x, frow (bm_lookup (kh k) (provs d kd)) p = Some x -> last_prov h k p = Some x;
  pi_eq : s_nprov s = tcount (provs d kd);
  pi_le : tcount (provs d kd) <= c_max_keys cfg }.

Lemma find_peer l r : NoDup (map p_peer l) -> In r l -> find (fun x => p_peer x =? p_peer r) l = Some r.
Proof using Type.
  clear kh_inj. induction l as [|x l IH]; intros ND H; [destruct H|]. cbn [map] in ND. apply NoDup_cons_iff in ND as [Hn ND]. cbn [find].
  destruct H as [->|H]; [rewrite N.eqb_refl; reflexivity|]. destruct (N.eqb_spec (p_peer x) (p_peer r)); auto.
  destruct Hn. rewrite e. apply in_map; auto.
Qed.
Lemma find_filter_exp now l p : NoDup (map p_peer l) ->
  live_prov now (find (fun r => p_peer r =? p) (filter (fun r => negb (expired (p_exp r) now)) l)) = live_prov now (find (fun r => p_peer r =? p) l).
Proof using Type.
  clear kh_inj. induction l as [|x l IH]; intros ND; [reflexivity|]. cbn [map] in ND. apply NoDup_cons_iff in ND as [Hn ND]. cbn [filter find].
  destruct (expired (p_exp x) now) eqn:X; cbn [negb find].
  - destruct (N.eqb_spec (p_peer x) p); auto. cbn [live_prov]. rewrite X. destruct (find _ _) as [y|] eqn:F; [|reflexivity].
    apply find_some in F as [F1 F2]. apply filter_In in F1 as [F1 _]. apply N.eqb_eq in F2. destruct Hn. rewrite e, <- F2. apply in_map; auto.
  - destruct (N.eqb_spec (p_peer x) p); auto.
Qed.
Lemma live_later now now' o o' : now <= now' -> live_prov now o = live_prov now o' -> live_prov now' o = live_prov now' o'.
Proof using Type.
  clear kh_inj. unfold live_prov. destruct o as [a|], o' as [b|]; auto.
  - intros L H. destruct (expired (p_exp a) now) eqn:A, (expired (p_exp b) now) eqn:B; try discriminate H.
    + rewrite (expired_mono _ now now'), (expired_mono (p_exp b) now now'); auto.
    + injection H as ->. reflexivity.
  - intros L H. destruct (expired (p_exp a) now) eqn:A; [|discriminate H]. rewrite (expired_mono _ now now'); auto.
  - intros L H. destruct (expired (p_exp b) now) eqn:A; [|discriminate H]. rewrite (expired_mono _ now now'); auto.
Qed.
Lemma find_app_one l r p : find (fun x => p_peer x =? p) (l ++ [r]) =
  match find (fun x => p_peer x =? p) l with Some x => Some x | None => if p_peer r =? p then Some r else None end.
Proof using Type. clear kh_inj. induction l as [|x l IH]; [reflexivity|]. cbn [app find]. destruct (p_peer x =? p); auto. Qed.
Lemma find_none_peer l p : ~ In p (map p_peer l) -> find (fun x => p_peer x =? p) l = None.
Proof using Type.
  clear kh_inj. induction l as [|x l IH]; intros H; [reflexivity|]. cbn [find]. destruct (N.eqb_spec (p_peer x) p); [destruct H; left; auto|].
  apply IH. intros X; apply H; right; auto.
Qed.

(** merging an announcement *)
Lemma merge_spec now l r h l' : good_row h l -> kh (p_key r) = h -> merge_provider cfg now l r = inl l' ->
  good_row h l' /\ (forall p now', now <= now' -> live_prov now' (find (fun x => p_peer x =? p) l') =
     if p_peer r =? p then live_prov now' (Some r) else live_prov now' (find (fun x => p_peer x =? p) l)) /\
  (forall p x, find (fun x => p_peer x =? p) l' = Some x -> if p_peer r =? p then x = r else find (fun x => p_peer x =? p) l = Some x).
Proof using Type.
  clear kh_inj. intros (Ne & ND & Ky & Ln) Kr M. unfold merge_provider in M. destruct (existsb _ l) eqn:X.
  - injection M as <-. apply existsb_exists in X as [y [Hy Ey]]. apply N.eqb_eq in Ey.
    assert (MP : map p_peer (map (fun x => if p_peer x =? p_peer r then r else x) l) = map p_peer l).
    { rewrite map_map. apply map_ext. intros a. destruct (N.eqb_spec (p_peer a) (p_peer r)); auto. }
    assert (FF : forall p, find (fun x => p_peer x =? p) (map (fun x => if p_peer x =? p_peer r then r else x) l) =
      if p_peer r =? p then Some r else find (fun x => p_peer x =? p) l).
    { intros p. destruct (N.eqb_spec (p_peer r) p) as [<-|Np].
      - apply find_peer; [rewrite MP; auto|]. apply in_map_iff. exists y. rewrite Ey, N.eqb_refl. auto.
      - clear -Np. induction l as [|x l IH]; [reflexivity|]. cbn [map find]. destruct (N.eqb_spec (p_peer x) (p_peer r)) as [E|Nx].
        + destruct (N.eqb_spec (p_peer r) p); [congruence|]. destruct (N.eqb_spec (p_peer x) p); [congruence|]. exact IH.
        + destruct (p_peer x =? p); auto. }
    split; [|split].
    + split; [|split; [|split]].
      * destruct l; [destruct Hy|discriminate].
      * rewrite MP; auto.
      * intros x Hx. apply in_map_iff in Hx as [z [E Hz]]. destruct (p_peer z =? p_peer r); subst x; auto.
      * rewrite map_length; auto.
    + intros p now' _. rewrite FF. destruct (p_peer r =? p); reflexivity.
    + intros p x. rewrite FF. destruct (p_peer r =? p); [congruence|auto].
  - destruct (N.ltb_spec (N.of_nat (length (filter (fun r0 => negb (expired (p_exp r0) now)) l))) (c_max_per_key cfg)) as [C|C]; [|discriminate M].
    injection M as <-.
    assert (Nr : ~ In (p_peer r) (map p_peer l)).
    { intros H. apply in_map_iff in H as [y [E Hy]]. assert (existsb (fun x => p_peer x =? p_peer r) l = true); [|congruence].
      apply existsb_exists. exists y. rewrite E, N.eqb_refl; auto. }
    assert (FI : forall x, In x (map p_peer (filter (fun r0 => negb (expired (p_exp r0) now)) l)) -> In x (map p_peer l)).
    { intros x H. apply in_map_iff in H as [y [E Hy]]. apply filter_In in Hy as [Hy _]. subst. apply in_map; auto. }
    split; [|split].
    + split; [destruct (filter _ l); discriminate|]. split; [|split].
      * rewrite map_app. cbn [map]. apply NoDup_app_intro.
        -- clear -ND. induction l as [|x l IH]; [constructor|]. cbn [map] in ND. apply NoDup_cons_iff in ND as [Hn ND]. cbn [filter].
           destruct (negb _); auto. cbn [map]. constructor; auto. intros H. apply Hn. apply in_map_iff in H as [y [E Hy]].
           apply filter_In in Hy as [Hy _]. rewrite <- E. apply in_map; auto.
        -- constructor; [intros []|constructor].
        -- intros x Hx [<-|[]]. auto.
      * intros x Hx. apply in_app_iff in Hx as [Hx|[<-|[]]]; auto. apply filter_In in Hx as [Hx _]; auto.
      * rewrite app_length. cbn [length]. lia.
    + intros p now' L. rewrite find_app_one. destruct (N.eqb_spec (p_peer r) p) as [<-|Np].
      * rewrite find_none_peer; auto.
      * transitivity (live_prov now' (find (fun x => p_peer x =? p) (filter (fun r0 => negb (expired (p_exp r0) now)) l))).
        -- destruct (find _ _); reflexivity.
        -- eapply live_later; [exact L|]. apply find_filter_exp; auto.
    + intros p x. rewrite find_app_one. destruct (N.eqb_spec (p_peer r) p) as [<-|Np].
      * rewrite find_none_peer; auto. congruence.
      * destruct (find (fun x0 => p_peer x0 =? p) (filter _ l)) as [y|] eqn:F; [|discriminate]. intros E; injection E as <-.
        apply find_some in F as [F1 F2]. apply filter_In in F1 as [F1 _]. apply N.eqb_eq in F2. subst p. apply find_peer; auto.
Qed.

Definition allexp (now : N) (l : list kprov) : bool := forallb (fun r => expired (p_exp r) now) l.
Lemma find_allexp now now' l p : allexp now l = true -> now <= now' -> live_prov now' (find (fun x => p_peer x =? p) l) = None.
Proof using Type.
  clear kh_inj. intros A L. destruct (find _ l) as [x|] eqn:F; [|reflexivity]. apply find_some in F as [F _].
  unfold allexp in A. rewrite forallb_forall in A. cbn. rewrite (expired_mono _ now now'); auto.
Qed.

Lemma evict_shape d s now : s_kind s = kd -> bm_sorted (provs d kd) ->
  let t := provs d kd in
  let t1 := filter (fun e => negb (droppable now (snd e))) t in
  exists d1 s1, evict_expired_providers d s now = (d1, s1) /\ provs d1 kd = t1 /\ (forall k, recs d1 k = recs d k) /\
    s_kind s1 = kd /\ s_node s1 = s_node s /\ s_local s1 = s_local s /\ s_nrec s1 = s_nrec s /\
    s_nprov s1 = s_nprov s - tcount (filter (fun e => droppable now (snd e)) t).
Proof using Type.
  clear kh_inj. intros Ek S. cbv zeta. unfold evict_expired_providers. rewrite Ek. eexists _, _. split; [reflexivity|].
  rewrite provs_set_provs. split; [apply tdel_all_filter; auto|]. split; [intros; apply recs_set_provs|]. repeat split; auto.
  cbn [s_nprov set_nprov]. unfold tcount. rewrite map_length. reflexivity.
Qed.

(** what an announcement does *)
Lemma add_cases d s now r : s_kind s = kd -> bm_sorted (provs d kd) ->
  let t := provs d kd in
  let t1 := filter (fun e => negb (droppable now (snd e))) t in
  let n1 := s_nprov s - tcount (filter (fun e => droppable now (snd e)) t) in
  let h := kh (p_key r) in
  exists d' s' e, add_provider kh cfg d s now r = (d', s', e) /\
  s_kind s' = kd /\ s_node s' = s_node s /\ s_local s' = s_local s /\ s_nrec s' = s_nrec s /\ (forall k, recs d' k = recs d k) /\
  ( (exists l e', bm_lookup h t = Some (Some l) /\ merge_provider cfg now l r = inr e' /\ e = Some e' /\ provs d' kd = t /\ s_nprov s' = s_nprov s) \/
    (exists l l', bm_lookup h t = Some (Some l) /\ merge_provider cfg now l r = inl l' /\ e = None /\ provs d' kd = bm_insert h (Some l') t /\ s_nprov s' = s_nprov s) \/
    (bm_lookup h t = Some None /\ e = None /\ provs d' kd = bm_insert h (Some [r]) t /\ s_nprov s' = s_nprov s) \/
    (bm_lookup h t = None /\ s_nprov s < c_max_keys cfg /\ e = None /\ provs d' kd = bm_insert h (Some [r]) t /\ s_nprov s' = s_nprov s + 1) \/
    (bm_lookup h t = None /\ c_max_keys cfg <= s_nprov s /\ n1 < c_max_keys cfg /\ e = None /\ provs d' kd = bm_insert h (Some [r]) t1 /\ s_nprov s' = n1 + 1) \/
    (bm_lookup h t = None /\ c_max_keys cfg <= s_nprov s /\ c_max_keys cfg <= n1 /\ e = Some MaxProvidedKeys /\ provs d' kd = t1 /\ s_nprov s' = n1)).
Proof using Type.
  clear kh_inj. intros Ek S t t1 n1 h. unfold add_provider. rewrite Ek. fold t. fold h.
  destruct (bm_lookup h t) as [[l|]|] eqn:E.
  - destruct (merge_provider cfg now l r) as [l'|e'] eqn:M.
    + eexists _, _, _. split; [reflexivity|]. do 4 (split; [auto|]). split; [intros; apply recs_set_provs|]. right. left. exists l, l'. rewrite provs_set_provs. auto.
    + eexists _, _, _. split; [reflexivity|]. do 5 (split; [auto|]). left. exists l, e'. auto.
  - eexists _, _, _. split; [reflexivity|]. do 4 (split; [auto|]). split; [intros; apply recs_set_provs|]. right. right. left. rewrite provs_set_provs. auto.
  - destruct (N.leb_spec (c_max_keys cfg) (s_nprov s)) as [F|F].
    + destruct (evict_shape d s now Ek S) as (d1 & s1 & -> & P1 & R1 & K1 & N1 & L1 & C1 & Q1). rewrite Q1. fold t. fold n1.
      destruct (N.ltb_spec n1 (c_max_keys cfg)) as [G|G].
      * eexists _, _, _. split; [reflexivity|]. cbn [s_kind s_node s_local s_nrec s_nprov set_nprov]. rewrite K1. do 4 (split; [auto|]).
        split; [intros; rewrite recs_set_provs; auto|]. do 4 right. left. rewrite provs_set_provs, P1. repeat (split; auto).
      * eexists _, _, _. split; [reflexivity|]. do 4 (split; [auto|]). split; [auto|]. do 5 right. rewrite P1, Q1. repeat (split; auto).
    + destruct (N.ltb_spec (s_nprov s) (c_max_keys cfg)) as [G|G]; [|lia].
      eexists _, _, _. split; [reflexivity|]. cbn [s_kind s_node s_local s_nrec s_nprov set_nprov]. rewrite Ek. do 4 (split; [auto|]).
      split; [intros; apply recs_set_provs|]. do 3 right. left. rewrite provs_set_provs. auto.
Qed.

Lemma frow_drop now now' t h p : bm_sorted t -> now <= now' ->
  live_prov now' (frow (bm_lookup h (filter (fun e => negb (droppable now (snd e))) t)) p) = live_prov now' (frow (bm_lookup h t) p).
Proof using Type.
  clear kh_inj. intros S L. rewrite lookup_filter; auto. destruct (bm_lookup h t) as [[l|]|]; auto. cbn [snd].
  destruct (droppable now (Some l)) eqn:D; cbn [negb frow]; auto. cbn [live_prov]. destruct l as [|x l]; [discriminate D|].
  symmetry. apply (find_allexp now); auto.
Qed.
Lemma lookup_sub f (t : ptab) h x : bm_sorted t -> bm_lookup h (filter f t) = Some x -> bm_lookup h t = Some x.
Proof using Type. clear kh_inj. intros S. rewrite lookup_filter; auto. destruct (bm_lookup h t); [|discriminate]. destruct (f _); [auto|discriminate]. Qed.

Lemma last_add_some h t d s r r' : pinv h t d s -> last_prov (EAdd r (Some r') :: h) = last_prov h.
Proof using Type. reflexivity. Qed.

Lemma good_single r : good_row (kh (p_key r)) [r].
Proof using Type.
  clear kh_inj. split; [discriminate|]. split; [constructor; [intros []|constructor]|]. split; [intros x [<-|[]]; reflexivity|]. cbn [length]. lia.
Qed.

(** inserting the row [l'] of a key with an announcement [r] merged into what was there before *)
Lemma pinv_insert h t d s r t0 l' d' s' :
  pinv h t d s -> bm_sorted t0 ->
  (forall h' x, bm_lookup h' t0 = Some x -> bm_lookup h' (provs d kd) = Some x) ->
  (forall h' p now, t <= now -> live_prov now (frow (bm_lookup h' t0) p) = live_prov now (frow (bm_lookup h' (provs d kd)) p)) ->
  good_row (kh (p_key r)) l' ->
  (forall p now', t <= now' -> live_prov now' (find (fun x => p_peer x =? p) l') =
     if p_peer r =? p then live_prov now' (Some r) else live_prov now' (frow (bm_lookup (kh (p_key r)) (provs d kd)) p)) ->
  (forall p x, find (fun x => p_peer x =? p) l' = Some x -> if p_peer r =? p then x = r else frow (bm_lookup (kh (p_key r)) (provs d kd)) p = Some x) ->
  provs d' kd = bm_insert (kh (p_key r)) (Some l') t0 ->
  s_nprov s' = tcount (provs d' kd) -> tcount (provs d' kd) <= c_max_keys cfg ->
  pinv (EAdd r None :: h) t d' s'.
Proof using kh_inj.
  intros [Ps Pr Pk PL PS Pe Ple] S0 Sub0 L0 G Lm Sm Ed En El.
  constructor; auto; rewrite ?Ed.
  - apply bm_insert_sorted; auto.
  - intros h' l. rewrite bm_lookup_insert; auto. destruct (N.eqb_spec h' (kh (p_key r))) as [->|_]; [intros X; injection X as <-; auto|].
    intros X. apply Pr. apply Sub0; auto.
  - intros h'. rewrite bm_lookup_insert; auto. destruct (N.eqb_spec h' (kh (p_key r))) as [->|_]; [intros _; exists (p_key r); auto|].
    intros X. apply Pk. destruct (bm_lookup h' t0) as [x|] eqn:E; [|congruence]. apply Sub0 in E. congruence.
  - intros k p now L. rewrite bm_lookup_insert; auto. cbn [last_prov]. destruct (N.eqb_spec (p_key r) k) as [<-|Nk].
    + rewrite N.eqb_refl. cbn [frow andb]. rewrite Lm; auto. destruct (p_peer r =? p); auto.
    + destruct (N.eqb_spec (kh k) (kh (p_key r))) as [E|_]; [apply kh_inj in E; congruence|]. cbn [andb]. rewrite L0; auto.
  - intros k p x. rewrite bm_lookup_insert; auto. cbn [last_prov]. destruct (N.eqb_spec (p_key r) k) as [<-|Nk].
    + rewrite N.eqb_refl. cbn [frow andb]. intros F. apply Sm in F. destruct (p_peer r =? p); [congruence|]. apply PS; auto.
    + destruct (N.eqb_spec (kh k) (kh (p_key r))) as [E|_]; [apply kh_inj in E; congruence|]. cbn [andb]. intros F. apply PS.
      destruct (bm_lookup (kh k) t0) as [y|] eqn:E; [|discriminate F]. apply Sub0 in E. rewrite E; auto.
Qed.

Lemma pinv_add h t d s r d' s' e : s_kind s = kd -> pinv h t d s -> add_provider kh cfg d s t r = (d', s', e) -> pinv (EAdd r e :: h) t d' s'.
Proof using kh_inj.
  intros Ek PI H. assert (PI' := PI). destruct PI' as [Ps Pr Pk PL PS Pe Ple].
  destruct (add_cases d s t r Ek Ps) as (d2 & s2 & e2 & A & _ & _ & _ & _ & _ & C). rewrite H in A. injection A as <- <- <-.
  pose proof (filter_split_len (fun x => droppable t (snd x)) (provs d kd)) as Cn.
  destruct C as [(l & e' & E & M & -> & Et & En)|[(l & l' & E & M & -> & Et & En)|[(E & -> & Et & En)|[(E & F & -> & Et & En)|[(E & F & G & -> & Et & En)|(E & F & G & -> & Et & En)]]]]].
  - constructor; rewrite ?Et; auto. congruence.
  - pose proof (Pr _ _ E) as Gr. destruct (merge_spec t l r _ l' Gr eq_refl M) as (M1 & M2 & M3).
    assert (Ln : tcount (bm_insert (kh (p_key r)) (Some l') (provs d kd)) = tcount (provs d kd)) by (eapply insert_len_old; eauto).
    apply (pinv_insert h t d s r (provs d kd) l'); auto; rewrite ?Et, ?Ln; try congruence.
    + intros p now' L. rewrite E. cbn [frow]. auto.
    + intros p x. rewrite E. cbn [frow]. apply M3.
  - assert (Ln : tcount (bm_insert (kh (p_key r)) (Some [r]) (provs d kd)) = tcount (provs d kd)) by (eapply insert_len_old; eauto).
    apply (pinv_insert h t d s r (provs d kd) [r]); auto; rewrite ?Et, ?Ln; try congruence; [apply good_single|..].
    + intros p now' L. rewrite E. cbn [find frow]. destruct (p_peer r =? p); reflexivity.
    + intros p x. rewrite E. cbn [find frow]. destruct (p_peer r =? p); congruence.
  - assert (Ln : tcount (bm_insert (kh (p_key r)) (Some [r]) (provs d kd)) = tcount (provs d kd) + 1) by (apply insert_len_new; auto).
    apply (pinv_insert h t d s r (provs d kd) [r]); auto; rewrite ?Et, ?Ln; [apply good_single|..]; try lia.
    + intros p now' L. rewrite E. cbn [find frow]. destruct (p_peer r =? p); reflexivity.
    + intros p x. rewrite E. cbn [find frow]. destruct (p_peer r =? p); congruence.
  - assert (E1 : bm_lookup (kh (p_key r)) (filter (fun x => negb (droppable t (snd x))) (provs d kd)) = None) by (rewrite lookup_filter, E; auto).
    pose proof (insert_len_new (kh (p_key r)) (Some [r]) _ E1) as Ln.
    apply (pinv_insert h t d s r (filter (fun x => negb (droppable t (snd x))) (provs d kd)) [r]); auto; rewrite ?Et, ?Ln; [apply sorted_filter; auto| | |apply good_single|..]; try lia.
    + intros h' x. apply lookup_sub; auto.
    + intros h' p now L. apply frow_drop; auto.
    + intros p now' L. rewrite E. cbn [find frow]. destruct (p_peer r =? p); reflexivity.
    + intros p x. rewrite E. cbn [find frow]. destruct (p_peer r =? p); congruence.
  - constructor; rewrite ?Et.
    + apply sorted_filter; auto.
    + intros h' l X. apply Pr. eapply lookup_sub; eauto.
    + intros h' X. apply Pk. destruct (bm_lookup h' (filter _ _)) as [x|] eqn:Z; [|congruence]. apply lookup_sub in Z; auto. congruence.
    + intros k p now L. cbn [last_prov]. rewrite frow_drop; auto.
    + intros k p x X. apply PS. destruct (bm_lookup (kh k) (filter _ _)) as [y|] eqn:Z; [|discriminate X]. apply lookup_sub in Z; auto. rewrite Z; auto.
    + lia.
    + lia.
Qed.

Lemma find_filter_peer l p q : find (fun x => p_peer x =? p) (filter (fun r => negb (p_peer r =? q)) l) =
  if p =? q then None else find (fun x => p_peer x =? p) l.
Proof using Type.
  clear kh_inj. induction l as [|x l IH]; [destruct (p =? q); reflexivity|]. cbn [filter find]. destruct (N.eqb_spec (p_peer x) q) as [E|Nq]; cbn [negb find].
  - rewrite IH. destruct (N.eqb_spec p q); auto. destruct (N.eqb_spec (p_peer x) p); [congruence|auto].
  - destruct (N.eqb_spec (p_peer x) p) as [E|Np]; auto. destruct (N.eqb_spec p q); [congruence|auto].
Qed.

Lemma pinv_remprov h t d s k p d' s' : s_kind s = kd -> pinv h t d s -> remove_provider kh d s k p = (d', s') -> pinv (ERemProv k p :: h) t d' s'.
Proof using kh_inj.
  intros Ek [Ps Pr Pk PL PS Pe Ple] H. unfold remove_provider in H. rewrite Ek in H.
  assert (KN : forall k', (k =? k') = false -> (kh k' =? kh k) = false).
  { intros k' N0. destruct (N.eqb_spec (kh k') (kh k)) as [E|]; auto. apply kh_inj in E. subst. rewrite N.eqb_refl in N0. discriminate N0. }
  destruct (bm_lookup (kh k) (provs d kd)) as [row|] eqn:E.
  2:{ injection H as <- <-. constructor; auto.
      - intros k' p' now L. cbn [last_prov]. destruct ((k =? k') && (p =? p')) eqn:B; [|auto].
        apply andb_prop in B as [B1 B2]. apply N.eqb_eq in B1, B2. subst. rewrite E. reflexivity.
      - intros k' p' x X. cbn [last_prov]. destruct ((k =? k') && (p =? p')) eqn:B; [|auto].
        apply andb_prop in B as [B1 B2]. apply N.eqb_eq in B1, B2. subst. rewrite E in X. discriminate X. }
  set (rem := match row with Some l => filter (fun r => negb (p_peer r =? p)) l | None => [] end) in *.
  assert (FR : forall p', find (fun x => p_peer x =? p') rem = if p' =? p then None else frow (Some row) p').
  { intros p'. unfold rem. destruct row as [l|]; [apply find_filter_peer|]. destruct (p' =? p); reflexivity. }
  pose proof (tdel_len _ _ _ Ps E) as Ld.
  assert (FB : forall p', find (fun x => p_peer x =? p') rem = (if p =? p' then None else frow (bm_lookup (kh k) (provs d kd)) p')).
  { intros p'. rewrite FR, E, (N.eqb_sym p p'). reflexivity. }
  destruct rem as [|x rem'] eqn:Er.
  - injection H as <- <-. constructor; rewrite ?provs_set_provs; cbn [s_nprov set_nprov].
    + apply tdel_sorted; auto.
    + intros h' l. rewrite lookup_tdel; auto. destruct (h' =? kh k); [discriminate|apply Pr].
    + intros h'. rewrite lookup_tdel; auto. destruct (h' =? kh k); [congruence|apply Pk].
    + intros k' p' now L. cbn [last_prov]. rewrite lookup_tdel; auto. destruct (N.eqb_spec k k') as [<-|Nk].
      * rewrite N.eqb_refl. cbn [andb]. specialize (FB p'). cbn [find] in FB. destruct (p =? p'); [reflexivity|]. rewrite <- PL; auto. rewrite <- FB. reflexivity.
      * rewrite KN; [|apply N.eqb_neq; auto]. cbn [andb]. auto.
    + intros k' p' y. cbn [last_prov]. rewrite lookup_tdel; auto. destruct (N.eqb_spec k k') as [<-|Nk]; [rewrite N.eqb_refl; discriminate|].
      rewrite KN; [|apply N.eqb_neq; auto]. cbn [andb]. auto.
    + lia.
    + lia.
  - injection H as <- <-.
    assert (Ln : tcount (bm_insert (kh k) (Some (x :: rem')) (provs d kd)) = tcount (provs d kd)) by (eapply insert_len_old; eauto).
    constructor; rewrite ?provs_set_provs, ?Ln; auto.
    + apply bm_insert_sorted; auto.
    + intros h' l. rewrite bm_lookup_insert; auto. destruct (N.eqb_spec h' (kh k)) as [->|_]; [|apply Pr]. intros X; injection X as <-.
      destruct row as [l|]; [|discriminate Er]. destruct (Pr _ _ E) as (G1 & G2 & G3 & G4). rewrite <- Er. split; [rewrite Er; discriminate|]. split; [|split].
      * unfold rem. clear -G2. induction l as [|y l IH]; [constructor|]. cbn [map] in G2. apply NoDup_cons_iff in G2 as [Hn G2]. cbn [filter].
        destruct (negb _); auto. cbn [map]. constructor; auto. intros X. apply Hn. apply in_map_iff in X as [z [Ez Hz]].
        apply filter_In in Hz as [Hz _]. rewrite <- Ez. apply in_map; auto.
      * intros r Hr. apply filter_In in Hr as [Hr _]. auto.
      * pose proof (filter_len_le (fun r => negb (p_peer r =? p)) l). unfold rem. lia.
    + intros h'. rewrite bm_lookup_insert; auto. destruct (N.eqb_spec h' (kh k)) as [->|_]; [exists k; auto|apply Pk].
    + intros k' p' now L. cbn [last_prov]. rewrite bm_lookup_insert; auto. destruct (N.eqb_spec k k') as [<-|Nk].
      * rewrite N.eqb_refl. cbn [andb frow]. rewrite FB. destruct (p =? p'); auto.
      * rewrite KN; [|apply N.eqb_neq; auto]. cbn [andb]. auto.
    + intros k' p' y. cbn [last_prov]. rewrite bm_lookup_insert; auto. destruct (N.eqb_spec k k') as [<-|Nk].
      * rewrite N.eqb_refl. cbn [andb frow]. rewrite FB. destruct (p =? p'); [discriminate|]. auto.
      * rewrite KN; [|apply N.eqb_neq; auto]. cbn [andb]. auto.
Qed.

Lemma pinv_corrupt h t d s k : pinv h t d s -> bm_lookup (kh k) (provs d kd) <> None ->
  pinv (ECorrupt k :: h) t (set_provs d kd (bm_insert (kh k) None (provs d kd))) s.
Proof using kh_inj.
  intros [Ps Pr Pk PL PS Pe Ple] H. destruct (bm_lookup (kh k) (provs d kd)) as [row|] eqn:E; [|congruence].
  assert (Ln : tcount (bm_insert (kh k) None (provs d kd)) = tcount (provs d kd)) by (eapply insert_len_old; eauto).
  assert (KN : forall k', (k =? k') = false -> (kh k' =? kh k) = false).
  { intros k' N0. destruct (N.eqb_spec (kh k') (kh k)) as [X|]; auto. apply kh_inj in X. subst. rewrite N.eqb_refl in N0. discriminate N0. }
  constructor; rewrite ?provs_set_provs, ?Ln; auto.
  - apply bm_insert_sorted; auto.
  - intros h' l. rewrite bm_lookup_insert; auto. destruct (h' =? kh k); [discriminate|apply Pr].
  - intros h'. rewrite bm_lookup_insert; auto. destruct (N.eqb_spec h' (kh k)) as [->|_]; [exists k; auto|apply Pk].
  - intros k' p' now L. cbn [last_prov]. rewrite bm_lookup_insert; auto. destruct (N.eqb_spec k k') as [<-|Nk]; [rewrite N.eqb_refl; reflexivity|].
    rewrite KN; [auto|apply N.eqb_neq; auto].
  - intros k' p' x. cbn [last_prov]. rewrite bm_lookup_insert; auto. destruct (N.eqb_spec k k') as [<-|Nk]; [rewrite N.eqb_refl; discriminate|].
    rewrite KN; [auto|apply N.eqb_neq; auto].
Qed.

Definition undecodable (e : N * option (list kprov)) : bool := match snd e with None => true | Some _ => false end.
Lemma pinv_scrub h t d s d' s' : s_kind s = kd -> pinv h t d s -> scrub_corrupt_providers d s = (d', s') ->
  pinv (ERestart :: h) t d' s' /\ (forall h', bm_lookup h' (provs d' kd) <> Some None).
Proof using Type.
  clear kh_inj. intros Ek [Ps Pr Pk PL PS Pe Ple] H. unfold scrub_corrupt_providers in H. rewrite Ek in H.
  change (fun e => match snd e with Some _ => false | None => true end) with undecodable in H. rewrite tdel_all_filter in H; auto.
  injection H as <- <-. pose proof (filter_split_len undecodable (provs d kd)) as Cn.
  rewrite provs_set_provs.
  assert (FL : forall h', frow (bm_lookup h' (filter (fun e => negb (undecodable e)) (provs d kd))) = frow (bm_lookup h' (provs d kd))).
  { intros h'. rewrite lookup_filter; auto. destruct (bm_lookup h' (provs d kd)) as [[l|]|]; reflexivity. }
  split.
  - constructor; rewrite ?provs_set_provs; cbn [s_nprov set_nprov].
    + apply sorted_filter; auto.
    + intros h' l X. apply Pr. eapply lookup_sub; eauto.
    + intros h' X. apply Pk. destruct (bm_lookup h' (filter _ _)) as [x|] eqn:Z; [|congruence]. apply lookup_sub in Z; auto. congruence.
    + intros k p now L. rewrite FL. cbn [last_prov]. auto.
    + intros k p x. rewrite FL. cbn [last_prov]. auto.
    + rewrite map_length. fold (tcount (filter undecodable (provs d kd))). lia.
    + lia.
  - intros h'. rewrite lookup_filter; auto. destruct (bm_lookup h' (provs d kd)) as [[l|]|]; discriminate.
Qed.
End S.
