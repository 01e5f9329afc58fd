(* Consequences of the refinement, in terms of the operations a user issues. *)
From Verif Require Import Util FileModel FileSpec FileProofs PackModel PackSpec PackProofs PackProofs2.

Section P.
Context {V : Type}.
Variable C : codec V.
Variable rsz wsz : nat.
Hypothesis Hr : 0 < rsz.
Hypothesis Hw : 0 < wsz.
Hypothesis HC : codec_ok C.
Variable uidx version : N.
Hypothesis Hv : (version < 2 ^ 16)%N.
Variable comp : bool.
Notation Inv := (inv C uidx version comp).
Notation step := (pack_step C rsz wsz uidx version).
Notation run := (pack_run C rsz wsz uidx version).

Lemma in_upto (r : nat * nat * V) n rs : In r (upto n rs) <-> In r rs /\ r_end r <= n.
Proof. unfold upto. rewrite filter_In, Nat.leb_le. tauto. Qed.

Lemma keep_step (P : V -> Prop) L o x L' r : log_step P L o x L' -> In r (l_recs L) -> keeps (r_end r) o -> In r (l_recs L').
Proof.
  intros S Hin K. inversion S; subst; cbn [relog l_recs] in *; auto.
  - apply in_app_iff; auto.
  - apply in_upto. auto.
  - destruct K.
Qed.
Lemma safe_step (P : V -> Prop) L o x L' r : log_step P L o x L' -> In r (l_recs L) -> r_end r <= l_safe L ->
  r_end r <= length (l_bytes L) -> keeps_or_crash (r_end r) o -> In r (l_recs L') /\ r_end r <= l_safe L'.
Proof.
  intros S Hin Hs Hb K. inversion S; subst; cbn [relog l_recs l_safe] in *; auto.
  - split; auto. apply in_app_iff; auto.
  - simpl in K. split; [apply in_upto; auto|lia].
  - split; auto. destruct (l_ro L); auto.
  - split; auto. apply in_upto. split; auto. lia.
Qed.

Lemma keep_run ops : forall k L r, Inv k L -> Forall (pop_ok C comp) ops -> Forall (keeps (r_end r)) ops -> In r (l_recs L) ->
  exists L', Inv (snd (run ops k)) L' /\ In r (l_recs L').
Proof.
  induction ops as [|o ops IH]; intros k L r I F K Hin; [exists L; auto|].
  inversion F; subst. inversion K; subst. cbn [pack_run].
  destruct (pack_step_ok C rsz wsz Hr Hw HC uidx version Hv comp o k L I) as (L1 & S & I1); auto.
  pose proof (keep_step _ _ _ _ _ r S Hin ltac:(auto)) as Hin1.
  destruct (step o k) as [x k1]. cbn [fst snd] in *.
  destruct (IH k1 L1 r I1) as (L2 & I2 & Hin2); auto. destruct (run ops k1). eauto.
Qed.
Lemma safe_run ops : forall k L r, Inv k L -> Forall (pop_ok C comp) ops -> Forall (keeps_or_crash (r_end r)) ops -> In r (l_recs L) ->
  r_end r <= l_safe L -> exists L', Inv (snd (run ops k)) L' /\ In r (l_recs L') /\ r_end r <= l_safe L'.
Proof.
  induction ops as [|o ops IH]; intros k L r I F K Hin Hs; [exists L; auto|].
  inversion F; subst. inversion K; subst. cbn [pack_run].
  destruct (pack_step_ok C rsz wsz Hr Hw HC uidx version Hv comp o k L I) as (L1 & S & I1); auto.
  destruct (i_recs _ _ _ _ _ _ I r Hin) as (_ & _ & Hb & _).
  destruct (safe_step _ _ _ _ _ r S Hin) as [Hin1 Hs1]; auto.
  destruct (step o k) as [x k1]. cbn [fst snd] in *.
  destruct (IH k1 L1 r I1) as (L2 & I2 & Hin2); auto. destruct (run ops k1). eauto.
Qed.

Lemma append_rec k L v p : Inv k L -> pop_ok C comp (OAppend v) -> fst (step (OAppend v) k) = XPos p ->
  exists L', Inv (snd (step (OAppend v) k)) L' /\ In (p, pack_len (snd (step (OAppend v) k)), v) (l_recs L').
Proof.
  intros I Hok E. destruct (pack_step_ok C rsz wsz Hr Hw HC uidx version Hv comp (OAppend v) k L I Hok) as (L' & S & I').
  exists L'. split; auto. unfold pack_len. rewrite (inv_len _ _ _ _ _ _ I').
  rewrite E in S. inversion S; subst. cbn [relog l_recs l_bytes]. apply in_app_iff. right; left; auto.
Qed.

Lemma fetch_rec k L p q v : Inv k L -> In (p, q, v) (l_recs L) -> fst (step (OFetch p) k) = XVal v.
Proof.
  intros I Hin. simpl. unfold pack_fetch.
  destruct (read_rec C rsz wsz Hr Hw HC uidx version Hv comp k L p q v I Hin) as (b & f1 & E1 & E2 & E3).
  rewrite E1, (i_hdr _ _ _ _ _ _ I). cbn [H0 h_comp]. rewrite E2. reflexivity.
Qed.

Lemma run_app a b k : run (a ++ b) k = (fst (run a k) ++ fst (run b (snd (run a k))), snd (run b (snd (run a k)))).
Proof.
  revert k; induction a as [|o a IH]; intros k; [simpl; apply surjective_pairing|].
  cbn [app pack_run]. destruct (step o k) as [x k1]. rewrite IH. destruct (run a k1); reflexivity.
Qed.

(* --- boundaries --- *)
Definition tag (r : nat * nat * V) : nat * V := (r_start r, r_val r).

Lemma tiles_app a (rs : list (nat * nat * V)) b r : tiles a rs b -> r_start r = b -> b < r_end r -> tiles a (rs ++ [r]) (r_end r).
Proof.
  revert a; induction rs as [|x rs IH]; simpl; intros a T E1 E2; [subst; auto|].
  destruct T as (A & B & D). auto.
Qed.
Lemma tiles_upto a (rs : list (nat * nat * V)) b n : tiles a rs b -> In n (map r_start rs) ->
  tiles a (upto n rs) n /\ map tag (upto n rs) = filter (fun e => fst e <? n) (map tag rs) /\ n <= b.
Proof.
  revert a; induction rs as [|r rs IH]; intros a T Hin; [destruct Hin|].
  destruct T as (A & B & D). destruct (tiles_bounds _ _ _ D) as [Hb1 Hb2].
  destruct Hin as [Hin|Hin].
  - (* cut right at this record: everything from here on goes *)
    assert (E : upto n (r :: rs) = []).
    { apply upto_nil. intros x [<-|Hx]; [lia|]. specialize (Hb2 x Hx). lia. }
    rewrite E. simpl. split; [lia|]. split; [|lia].
    destruct (Nat.ltb_spec (r_start r) n); [lia|]. symmetry.
    assert (G : forall l, (forall x, In x l -> n <= r_start x) -> filter (fun e => fst e <? n) (map tag l) = []).
    { induction l as [|y l IHl]; intros Hl; simpl; auto. destruct (Nat.ltb_spec (r_start y) n) as [Hy|_]; [specialize (Hl y (or_introl eq_refl)); lia|].
      apply IHl. intros; apply Hl; simpl; auto. }
    apply G. intros x Hx. specialize (Hb2 x Hx). lia.
  - destruct (IH _ D Hin) as (T' & M & Hle).
    assert (Hn : r_end r <= n).
    { apply in_map_iff in Hin. destruct Hin as (y & Ey & Hy). specialize (Hb2 y Hy). lia. }
    unfold upto. cbn [filter map]. fold (upto n rs). destruct (Nat.leb_spec (r_end r) n); [|lia].
    cbn [map tiles tag fst]. destruct (Nat.ltb_spec (r_start r) n); [|lia]. rewrite M. repeat split; auto.
Qed.

Lemma boundary_run ops : forall k L acc, Inv k L -> Forall (pop_ok C comp) ops ->
  tiles 28 (l_recs L) (length (l_bytes L)) -> map tag (l_recs L) = acc ->
  at_boundaries acc ops (fst (run ops k)) ->
  exists L', Inv (snd (run ops k)) L' /\ tiles 28 (l_recs L') (length (l_bytes L')) /\
    map tag (l_recs L') = survivors acc ops (fst (run ops k)).
Proof.
  induction ops as [|o ops IH]; intros k L acc I F T M A; [exists L; simpl; auto|].
  inversion F; subst. cbn [pack_run] in *.
  destruct (pack_step_ok C rsz wsz Hr Hw HC uidx version Hv comp o k L I) as (L1 & S & I1); auto.
  destruct (step o k) as [x k1]. cbn [fst snd] in *.
  specialize (IH k1 L1).
  destruct (run ops k1) as [xs k2]. cbn [fst snd] in *.
  assert (Hsame : l_recs L1 = l_recs L -> length (l_bytes L1) = length (l_bytes L) -> at_boundaries (map tag (l_recs L)) ops xs ->
     exists L', Inv k2 L' /\ tiles 28 (l_recs L') (length (l_bytes L')) /\ map tag (l_recs L') = survivors (map tag (l_recs L)) ops xs).
  { intros E1 E2 A'. apply (IH (map tag (l_recs L)) I1); auto; congruence. }
  inversion S; subst; cbn [at_boundaries survivors] in A |- *; try (apply Hsame; auto; fail).
  - cbn [relog l_recs l_bytes] in *. apply (IH (map tag (l_recs L) ++ [(length (l_bytes L), v)]) I1); auto.
    + match goal with |- tiles 28 (_ ++ [?r]) _ => apply (tiles_app 28 (l_recs L) (length (l_bytes L)) r); auto end.
      unfold r_end; cbn [fst snd]. rewrite app_length. destruct fr; [congruence|simpl; lia].
    + rewrite map_app. reflexivity.
  - destruct A as [Ain A]. cbn [relog l_recs l_bytes] in *.
    rewrite map_map in Ain.
    destruct (tiles_upto 28 (l_recs L) _ n T Ain) as (T' & M' & Hle).
    apply (IH _ I1); auto. rewrite app_length, firstn_length, repeat_length.
    replace (Nat.min n (length (l_bytes L)) + (n - length (l_bytes L))) with n by lia. auto.
  - destruct A.
Qed.

Lemma crash_iter k L n : Inv k L -> 28 <= n -> tiles 28 (l_recs L) (length (l_bytes L)) ->
  exists m e, l_safe L <= m <= length (l_bytes L) /\
    fst (step OIter (snd (step (OCrash n) k))) = XVals (map r_val (upto m (l_recs L))) e /\
    (e = None <-> m < last_end 28 (upto m (l_recs L)) + 4).
Proof.
  intros I Hn T. pose proof (i_28 _ _ _ _ _ _ I) as H28.
  destruct (inv_os C rsz wsz Hr Hw uidx version Hv comp _ _ I) as [_ Hle].
  assert (Hsf : l_safe L <= l_os L).
  { rewrite <- (i_safe _ _ _ _ _ _ I), <- (i_os _ _ _ _ _ _ I). apply (wf_safe _ (i_wf _ _ _ _ _ _ I)). }
  set (m := Nat.min (Nat.max (l_safe L) n) (l_os L)).
  assert (Hos : firstn (Nat.max (l_safe L) n) (f_os (k_df k)) = firstn m (l_bytes L)).
  { rewrite (inv_os_firstn C rsz wsz Hr Hw uidx version Hv comp _ _ I), firstn_firstn. reflexivity. }
  assert (Hml : length (firstn m (l_bytes L)) = m) by (rewrite firstn_length; unfold m; lia).
  assert (Hh : firstn 28 (firstn m (l_bytes L)) = header_bytes C (H0 C uidx version comp)).
  { rewrite firstn_firstn. replace (Nat.min 28 m) with 28 by (unfold m; lia). apply I. }
  cbn [pack_step].
  rewrite (i_hdr _ _ _ _ _ _ I), (i_safe _ _ _ _ _ _ I), (i_ro _ _ _ _ _ _ I), Hos, Hml. cbn [H0 h_comp].
  replace (Nat.min (l_safe L) m) with (l_safe L) by (unfold m; lia).
  destruct (open_existing C rsz wsz Hr Hw HC uidx version Hv comp (firstn m (l_bytes L)) (l_safe L) (l_ro L))
    as (k' & E & _ & _ & _ & _ & _ & Ok & _); auto.
  1,2: rewrite Hml; unfold m; lia.
  rewrite E. cbn [fst snd]. rewrite Ok.
  rewrite (iter_os C rsz wsz Hr Hw HC uidx version Hv comp) by (auto; rewrite Hml; unfold m; lia).
  rewrite Hml.
  replace (skipn 28 (firstn m (l_bytes L))) with (slice (l_bytes L) 28 (m - 28)) by (unfold slice; symmetry; apply skipn_firstn_comm).
  destruct (iter_tiles C rsz wsz Hr Hw HC version Hv comp (l_bytes L) (l_recs L) 28 m m T) as (e & -> & He).
  - apply I.
  - unfold m; lia.
  - unfold m; lia.
  - exists m, e. cbn [xof]. split; [unfold m; lia|]. auto.
Qed.
End P.
