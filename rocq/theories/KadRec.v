(** C63: the records of a history. *)
From Verif Require Import Util KadModel KadSpec KadProofs.
Local Open Scope N_scope.

Definition live_of (now : N) (e : N * option krec) : list krec :=
  match snd e with Some r => if expired (k_exp r) now then [] else [r] | None => [] end.
Lemma records_of_spec now t : (forall e, In e t -> snd e <> None) -> records_of now t = Some (flat_map (live_of now) t).
Proof.
  induction t as [|[h [r|]] t IH]; intros H; [reflexivity| |destruct (H (h, None)); [left|]; auto].
  cbn [records_of flat_map]. rewrite IH; [|intros; apply H; right; auto]. change (live_of now (h, Some r)) with (if expired (k_exp r) now then [] else [r]).
  destruct (expired (k_exp r) now); reflexivity.
Qed.
Lemma records_of_none now t : records_of now t = None <-> exists h, In (h, None) t.
Proof.
  induction t as [|[h [r|]] t IH]; cbn [records_of].
  - split; [discriminate|intros [h []]].
  - destruct (records_of now t).
    + split; [discriminate|]. intros [h' [E|H]]; [discriminate E|]. destruct IH as [_ IH]. discriminate IH. exists h'; auto.
    + split; auto. intros _. destruct IH as [IH _]. destruct IH as [h' H]; auto. exists h'. right; auto.
  - split; auto. intros _. exists h. left; auto.
Qed.

Section S.
Variable kh : N -> N.
Variable cfg : kcfg.
Variable loads : krec -> bool.
Variables (kd : kind) (node local : N).
Hypothesis kh_inj : forall a b, kh a = kh b -> a = b.

Definition rowlive (now : N) (x : option (option krec)) : option krec := match x with Some row => live_rec now row | None => None end.
Definition keyed (t : rtab) : Prop := forall e, In e t -> exists r, snd e = Some r /\ fst e = kh (k_key r).
Record rinv (h : list event) (t : N) (d : kdb) (s : kstore) : Prop := {
  ri_kind : s_kind s = kd; ri_node : s_node s = node; ri_local : s_local s = local;
  ri_sort : bm_sorted (recs d kd);
  ri_key : keyed (recs d kd);
  ri_live : forall k now, t <= now -> rowlive now (bm_lookup (kh k) (recs d kd)) = live_rec now (last_rec loads h k);
  ri_le : s_nrec s <= tcount (recs d kd);
  ri_eq : careful h -> s_nrec s = tcount (recs d kd) /\ tcount (recs d kd) <= c_max_records cfg }.

Lemma keyed_some t : keyed t -> forall e, In e t -> snd e <> None.
Proof using Type.
  clear kh_inj. intros K e He. destruct (K e He) as [r [-> _]]. discriminate. Qed.
Lemma keyed_filter f t : keyed t -> keyed (filter f t).
Proof using Type.
  clear kh_inj. intros K e He. apply filter_In in He as [He _]. auto. Qed.
Lemma insert_entry (k : N) (v : option krec) t e : bm_sorted t -> In e (bm_insert k v t) -> e = (k, v) \/ In e t.
Proof using Type.
  clear kh_inj.
  intros S H. destruct e as [k' v']. apply bm_lookup_In in H; [|apply bm_insert_sorted; auto]. rewrite bm_lookup_insert in H; auto.
  destruct (N.eqb_spec k' k); [injection H as <-; subst; auto|]. right. apply bm_lookup_In; auto.
Qed.
Lemma keyed_insert r t : bm_sorted t -> keyed t -> keyed (bm_insert (kh (k_key r)) (Some r) t).
Proof using Type.
  clear kh_inj.
  intros S K e He. apply insert_entry in He as [->|He]; auto. exists r. auto.
Qed.
Lemma rowlive_evict now now' t k : bm_sorted t -> keyed t -> now <= now' ->
  rowlive now' (bm_lookup k (filter (fun e => negb (rexp now e)) t)) = rowlive now' (bm_lookup k t).
Proof using Type.
  clear kh_inj.
  intros S K L. rewrite lookup_filter; auto. destruct (bm_lookup k t) as [row|] eqn:E; [|reflexivity].
  unfold rexp. cbn [snd]. destruct row as [r|]; [|reflexivity]. destruct (expired (k_exp r) now) eqn:X; [|reflexivity].
  cbn. rewrite (expired_mono _ now now'); auto.
Qed.

(** what a put does *)
Lemma put_cases d s now r : bm_sorted (recs d (s_kind s)) -> keyed (recs d (s_kind s)) ->
  let t := recs d (s_kind s) in
  let t1 := filter (fun e => negb (rexp now e)) t in
  let n1 := s_nrec s - tcount (filter (rexp now) t) in
  let h := kh (k_key r) in
  exists d' s' e, put kh cfg d s now r = Some (d', s', e) /\
  s_kind s' = s_kind s /\ s_node s' = s_node s /\ s_local s' = s_local s /\ s_nprov s' = s_nprov s /\ (forall k, provs d' k = provs d k) /\
  let t' := recs d' (s_kind s) in
  ( (c_max_value cfg <= k_len r /\ e = Some ValueTooLarge /\ t' = t /\ s_nrec s' = s_nrec s) \/
    (k_len r < c_max_value cfg /\ e = None /\ bm_lookup h t <> None /\ t' = bm_insert h (Some r) t /\ s_nrec s' = s_nrec s) \/
    (k_len r < c_max_value cfg /\ e = None /\ bm_lookup h t = None /\ s_nrec s < c_max_records cfg /\ t' = bm_insert h (Some r) t /\ s_nrec s' = s_nrec s + 1) \/
    (k_len r < c_max_value cfg /\ e = None /\ bm_lookup h t = None /\ c_max_records cfg <= s_nrec s /\ n1 < c_max_records cfg /\ t' = bm_insert h (Some r) t1 /\ s_nrec s' = n1 + 1) \/
    (k_len r < c_max_value cfg /\ e = Some MaxRecords /\ bm_lookup h t = None /\ c_max_records cfg <= s_nrec s /\ c_max_records cfg <= n1 /\ t' = t1 /\ s_nrec s' = n1)).
Proof using Type.
  clear kh_inj.
  intros S K t t1 n1 h. unfold put.
  destruct (N.leb_spec (c_max_value cfg) (k_len r)) as [L|L].
  - exists d, s, (Some ValueTooLarge). cbn. repeat (split; [reflexivity|]). left. auto.
  - fold t. fold h. destruct (bm_lookup h t) as [row|] eqn:E.
    + eexists _, _, _. split; [reflexivity|]. repeat (split; [reflexivity|]). split; [intros; apply provs_set_recs|].
      cbn. rewrite recs_set_recs. right. left. repeat (split; auto). discriminate.
    + destruct (N.leb_spec (c_max_records cfg) (s_nrec s)) as [F|F].
      * unfold evict_expired_records. fold t. rewrite expired_keys_spec; [|apply keyed_some; auto].
        rewrite tdel_all_filter; auto. fold t1. replace (N.of_nat (length (map fst (filter (rexp now) t)))) with (tcount (filter (rexp now) t)) by (unfold tcount; rewrite map_length; reflexivity).
        cbn [s_nrec set_nrec]. fold n1. destruct (N.leb_spec (c_max_records cfg) n1) as [G|G].
        -- eexists _, _, _. split; [reflexivity|]. repeat (split; [reflexivity|]). split; [intros; apply provs_set_recs|].
           cbn. rewrite recs_set_recs. right. right. right. right. repeat (split; auto).
        -- eexists _, _, _. split; [reflexivity|]. repeat (split; [reflexivity|]). split; [intros; rewrite !provs_set_recs; reflexivity|].
           cbn [s_kind set_nrec s_nrec]. rewrite !recs_set_recs. right. right. right. left. repeat (split; auto).
      * eexists _, _, _. split; [reflexivity|]. repeat (split; [reflexivity|]). split; [intros; apply provs_set_recs|].
        cbn [s_kind set_nrec s_nrec]. rewrite recs_set_recs. right. right. left. repeat (split; auto).
Qed.

Lemma rowlive_insert now r t k : bm_sorted t ->
  rowlive now (bm_lookup (kh k) (bm_insert (kh (k_key r)) (Some r) t)) =
  if k_key r =? k then live_rec now (Some r) else rowlive now (bm_lookup (kh k) t).
Proof using kh_inj.
  intros S. rewrite bm_lookup_insert; auto. destruct (N.eqb_spec (k_key r) k) as [->|Hn]; [rewrite N.eqb_refl; reflexivity|].
  destruct (N.eqb_spec (kh k) (kh (k_key r))) as [E|_]; [apply kh_inj in E; congruence|reflexivity].
Qed.
Lemma live_rec_if now b (r : krec) x : live_rec now (if b : bool then Some r else x) = if b then live_rec now (Some r) else live_rec now x.
Proof using Type.
  clear kh_inj. destruct b; reflexivity. Qed.

Lemma rinv_put h t d s r d' s' e : rinv h t d s -> put kh cfg d s t r = Some (d', s', e) -> rinv (EPut r e :: h) t d' s'.
Proof using kh_inj.
  intros [Rk Rn Rl Rs Ry RL Rle Req] H.
  destruct (put_cases d s t r) as (d2 & s2 & e2 & P & Ek & En & El & _ & _ & C); [rewrite Rk; auto..|].
  rewrite H in P. injection P as <- <- <-. rewrite Rk in C.
  pose proof (sorted_filter (fun x => negb (rexp t x)) _ Rs) as Fs. pose proof (keyed_filter (fun x => negb (rexp t x)) _ Ry) as Fk.
  pose proof (filter_split_len (rexp t) (recs d kd)) as Cn.
  cbv zeta in C.
  destruct C as [(L & -> & Ht & Hn)|[(L & -> & E & Ht & Hn)|[(L & -> & E & F & Ht & Hn)|[(L & -> & E & F & G & Ht & Hn)|(L & -> & E & F & G & Ht & Hn)]]]].
  - constructor; rewrite ?Ht; try congruence; auto; cbn [careful last_rec]; rewrite ?Hn; auto.
  - destruct (bm_lookup (kh (k_key r)) (recs d kd)) as [w|] eqn:E'; [|congruence].
    constructor; rewrite ?Ht; try congruence.
    + apply bm_insert_sorted; auto.
    + apply keyed_insert; auto.
    + intros k now Hw. rewrite rowlive_insert; auto. cbn [last_rec]. rewrite live_rec_if. destruct (k_key r =? k); auto.
    + rewrite Hn, (insert_len_old _ _ _ w); auto.
    + cbn [careful]. intros Cf. rewrite Hn, (insert_len_old _ _ _ w); auto.
  - constructor; rewrite ?Ht; try congruence.
    + apply bm_insert_sorted; auto.
    + apply keyed_insert; auto.
    + intros k now Hw. rewrite rowlive_insert; auto. cbn [last_rec]. rewrite live_rec_if. destruct (k_key r =? k); auto.
    + rewrite Hn, insert_len_new; auto. lia.
    + cbn [careful]. intros Cf. rewrite Hn, insert_len_new; auto. destruct (Req Cf). lia.
  - assert (N1 : bm_lookup (kh (k_key r)) (filter (fun x => negb (rexp t x)) (recs d kd)) = None) by (rewrite lookup_filter, E; auto).
    constructor; rewrite ?Ht; try congruence.
    + apply bm_insert_sorted; auto.
    + apply keyed_insert; auto.
    + intros k now Hw. rewrite rowlive_insert; auto. cbn [last_rec]. rewrite live_rec_if. destruct (k_key r =? k); auto. rewrite rowlive_evict; auto.
    + rewrite Hn, insert_len_new; auto. lia.
    + cbn [careful]. intros Cf. rewrite Hn, insert_len_new; auto. destruct (Req Cf). lia.
  - constructor; rewrite ?Ht; try congruence; auto.
    + intros k now Hw. cbn [last_rec]. rewrite rowlive_evict; auto.
    + rewrite Hn. lia.
    + cbn [careful]. intros Cf. rewrite Hn. destruct (Req Cf). lia.
Qed.

Lemma get_row d s now k : keyed (recs d (s_kind s)) -> bm_sorted (recs d (s_kind s)) -> get kh d s now k = Some (rowlive now (bm_lookup (kh k) (recs d (s_kind s)))).
Proof using Type.
  clear kh_inj.
  intros K S. unfold get. destruct (bm_lookup (kh k) (recs d (s_kind s))) as [[r|]|] eqn:E; auto.
  apply bm_lookup_In in E; auto. destruct (K _ E) as [r [X _]]. discriminate X.
Qed.

Lemma rinv_remove h t d s k d' s' b : rinv h t d s -> remove kh d s k = (d', s') ->
  (b = true <-> exists x, get kh d s t k = Some (Some x)) -> rinv (ERemove k b :: h) t d' s'.
Proof using kh_inj.
  intros [Rk Rn Rl Rs Ry RL Rle Req] H Hb. unfold remove in H. injection H as <- <-.
  rewrite get_row in Hb; [|rewrite Rk; auto..]. rewrite Rk in *.
  assert (CL : s_nrec s - 1 <= tcount (tdel (kh k) (recs d kd)) /\
    (bm_lookup (kh k) (recs d kd) <> None -> tcount (recs d kd) = tcount (tdel (kh k) (recs d kd)) + 1)).
  { destruct (bm_lookup (kh k) (recs d kd)) as [w|] eqn:E.
    - pose proof (tdel_len _ _ _ Rs E). split; [lia|]. auto.
    - rewrite tdel_absent; auto. split; [lia|]. congruence. }
  constructor; cbn [s_kind s_node s_local s_nrec set_nrec]; auto; rewrite ?recs_set_recs.
  - apply tdel_sorted; auto.
  - apply keyed_filter; auto.
  - intros k' now Hw. rewrite lookup_tdel; auto. cbn [last_rec]. destruct (N.eqb_spec k k') as [->|Hn]; [rewrite N.eqb_refl; reflexivity|].
    destruct (N.eqb_spec (kh k') (kh k)) as [E|_]; [apply kh_inj in E; congruence|]. auto.
  - lia.
  - destruct b; cbn [careful]; [|intros []]. intros Cf. destruct Hb as [Hb _]. destruct Hb as [x Hx]; auto.
    assert (bm_lookup (kh k) (recs d kd) <> None) by (intros X; rewrite X in Hx; discriminate Hx).
    destruct CL as [_ CL]. specialize (CL H). destruct (Req Cf). lia.
Qed.

(** the start-up load *)
Definition bad (now : N) (e : N * option krec) : bool :=
  match snd e with Some r => negb (expired (k_exp r) now) && negb (loads r) | None => false end.
Lemma bad_keys now t : keyed t -> map (fun r => kh (k_key r)) (filter (fun r => negb (loads r)) (flat_map (live_of now) t)) = map fst (filter (bad now) t).
Proof using Type.
  clear kh_inj.
  induction t as [|[h row] t IH]; intros K; [reflexivity|]. assert (K' : keyed t) by (intros e He; apply K; right; auto).
  destruct (K (h, row)) as [r [E1 E2]]; [left; auto|]. cbn in E1, E2. subst row h. cbn [flat_map filter]. change (live_of now (kh (k_key r), Some r)) with (if expired (k_exp r) now then [] else [r]).
  change (bad now (kh (k_key r), Some r)) with (negb (expired (k_exp r) now) && negb (loads r)).
  destruct (expired (k_exp r) now); cbn [negb andb app filter]; auto. destruct (loads r); cbn [negb map fst]; [auto|]. rewrite IH; auto.
Qed.
Lemma fold_remove bs : forall d s, s_kind s = kd -> bm_sorted (recs d kd) -> s_nrec s = tcount (recs d kd) ->
  NoDup (map (fun r => kh (k_key r)) bs) -> (forall r, In r bs -> bm_lookup (kh (k_key r)) (recs d kd) <> None) ->
  let ds := fold_left (fun ds r => remove kh (fst ds) (snd ds) (k_key r)) bs (d, s) in
  s_kind (snd ds) = kd /\ s_node (snd ds) = s_node s /\ s_local (snd ds) = s_local s /\ s_nprov (snd ds) = s_nprov s /\ (forall k, provs (fst ds) k = provs d k) /\
  recs (fst ds) kd = tdel_all (map (fun r => kh (k_key r)) bs) (recs d kd) /\ s_nrec (snd ds) = tcount (recs (fst ds) kd).
Proof using Type.
  clear kh_inj loads.
  induction bs as [|r bs IH]; intros d s Ek Ss En ND Hp.
  - cbn. auto 10.
  - cbn [map] in ND. apply NoDup_cons_iff in ND as [Nin ND]. cbn [fold_left].
    destruct (bm_lookup (kh (k_key r)) (recs d kd)) as [w|] eqn:E; [|destruct (Hp r); [left|]; auto].
    pose proof (tdel_len _ _ _ Ss E) as L.
    cbn [fst snd]. set (ds := remove kh d s (k_key r)).
    assert (Rd : recs (fst ds) kd = tdel (kh (k_key r)) (recs d kd)) by (unfold ds, remove; cbn [fst]; rewrite Ek; apply recs_set_recs).
    assert (Sk : s_kind (snd ds) = kd) by exact Ek.
    assert (Sn : s_nrec (snd ds) = s_nrec s - 1) by reflexivity.
    assert (Pd : forall k, provs (fst ds) k = provs d k) by (intros k; unfold ds, remove; cbn [fst]; apply provs_set_recs).
    destruct ds as [d1 s1] eqn:Eds. cbn [fst snd] in *.
    assert (Lo : s_node s1 = s_node s /\ s_local s1 = s_local s /\ s_nprov s1 = s_nprov s).
    { unfold ds, remove in Eds. injection Eds as <- <-. auto. }
    destruct (IH d1 s1) as (A & B & C & D & F & G & I); auto.
    + rewrite Rd. apply tdel_sorted; auto.
    + rewrite Sn, Rd, En. lia.
    + intros r' Hr'. rewrite Rd, lookup_tdel; auto. destruct (N.eqb_spec (kh (k_key r')) (kh (k_key r))) as [X|_]; [|apply Hp; right; auto].
      destruct Nin. rewrite <- X. apply (in_map (fun r => kh (k_key r))); auto.
    + destruct Lo as (L1 & L2 & L3). repeat split; try congruence. rewrite G, Rd. reflexivity.
Qed.

Lemma start_shape d now : bm_sorted (recs d kd) -> keyed (recs d kd) ->
  exists d1 s1, start kh loads d kd node local now = Some (scrub_corrupt_providers d1 s1) /\
  s_kind s1 = kd /\ s_node s1 = node /\ s_local s1 = local /\ s_nprov s1 = tcount (provs d kd) /\ (forall k, provs d1 k = provs d k) /\
  recs d1 kd = filter (fun e => negb (bad now e)) (recs d kd) /\ s_nrec s1 = tcount (recs d1 kd).
Proof using Type.
  clear kh_inj.
  intros Ss Ky. unfold start, records. change (s_kind (new_store d kd node local)) with kd. rewrite records_of_spec; [|apply keyed_some; auto].
  set (bs := filter (fun r => negb (loads r)) (flat_map (live_of now) (recs d kd))).
  pose proof (bad_keys now (recs d kd) Ky) as BK. fold bs in BK.
  destruct (fold_remove bs d (new_store d kd node local)) as (A & B & C & D & F & G & I); auto.
  - rewrite BK. pose proof (sorted_filter (bad now) _ Ss) as X. apply ssorted_lt_NoDup. exact X.
  - intros r Hr. apply (in_map (fun r => kh (k_key r))) in Hr. rewrite BK in Hr. apply keys_filter in Hr.
    intros X. apply bm_lookup_None in X. auto.
  - destruct (fold_left _ bs _) as [d1 s1]. cbn [fst snd] in *. exists d1, s1. split; [reflexivity|].
    repeat (split; auto). rewrite G, BK. apply tdel_all_filter; auto.
Qed.

Lemma scrub_recs d s k : recs (fst (scrub_corrupt_providers d s)) k = recs d k.
Proof using Type.
  clear kh_inj. unfold scrub_corrupt_providers. cbn [fst]. apply recs_set_provs. Qed.

Lemma rinv_restart h t d s d' s' : rinv h t d s -> start kh loads d kd node local t = Some (d', s') -> rinv (ERestart :: h) t d' s'.
Proof using Type.
  clear kh_inj.
  intros [Rk Rn Rl Rs Ry RL Rle Req] H. destruct (start_shape d t) as (d1 & s1 & E & Ek & En & El & _ & _ & ER & EN); auto.
  rewrite E in H. assert (H' : scrub_corrupt_providers d1 s1 = (d', s')) by congruence. clear H. rename H' into H.
  assert (Hr : recs d' kd = recs d1 kd) by (rewrite <- (scrub_recs d1 s1), H; reflexivity).
  assert (Hs : s' = set_nprov s1 (s_nprov s')) by (unfold scrub_corrupt_providers in H; apply (f_equal snd) in H; cbn [snd] in H; rewrite <- H; reflexivity).
  pose proof (filter_split_len (bad t) (recs d kd)) as Cn.
  rewrite Hs. constructor; cbn [s_kind s_node s_local s_nrec set_nprov]; auto; rewrite ?Hr, ?ER.
  - apply sorted_filter; auto.
  - apply keyed_filter; auto.
  - intros k now Hw. cbn [last_rec]. rewrite lookup_filter; auto. specialize (RL k now Hw).
    destruct (bm_lookup (kh k) (recs d kd)) as [row|] eqn:L.
    + assert (K := L). apply bm_lookup_In in K; auto. destruct (Ry _ K) as [r [Er _]]. cbn in Er. subst row.
      unfold bad. cbn [snd]. cbn [rowlive live_rec] in RL.
      destruct (last_rec loads h k) as [r'|]; cbn [live_rec] in RL.
      * destruct (expired (k_exp r) t) eqn:X.
        -- cbn [negb andb rowlive live_rec]. rewrite (expired_mono _ t now) in *; auto.
           destruct (loads r'); cbn [live_rec]; [exact RL|reflexivity].
        -- cbn [negb andb]. destruct (expired (k_exp r) now) eqn:Y.
           ++ assert (expired (k_exp r') now = true) by (destruct (expired (k_exp r') now); [auto|discriminate RL]).
              destruct (loads r'), (negb (loads r)); cbn [rowlive live_rec negb]; rewrite ?Y, ?H0; reflexivity.
           ++ destruct (expired (k_exp r') now) eqn:Z; [discriminate RL|]. injection RL as <-.
              destruct (loads r); cbn [rowlive live_rec negb]; rewrite ?Y; reflexivity.
      * destruct (negb _); cbn [rowlive live_rec]; auto.
    + cbn [rowlive] in *. destruct (last_rec loads h k) as [r'|]; [|reflexivity]. destruct (loads r'); auto.
  - rewrite EN, ER. lia.
  - cbn [careful]. intros Cf. rewrite EN, ER. destruct (Req Cf). lia.
Qed.
End S.
