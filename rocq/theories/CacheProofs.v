(* The cache (CacheModel) computes the held set (CacheSpec). *)
From Coq Require Import Sorting.Sorted.
From Verif Require Import Util CacheModel CacheSpec.
Local Open Scope N_scope.

Definition before (a b : N * N) : Prop := snd a <= snd b.
Record CI (c : cache) (t : N) : Prop := mkCI {
  ci_nd : NoDup (map fst (c_list c));
  ci_nm : NoDup (c_map c);
  ci_eq : forall k, In k (c_map c) <-> In k (map fst (c_list c));
  ci_le : (length (c_list c) <= c_max c)%nat;
  ci_max : (1 <= c_max c)%nat;
  ci_sort : StronglySorted before (c_list c);
  ci_t : Forall (fun e => snd e <= t) (c_list c) }.

Lemma ci_new dur n : CI (cache_new dur n) 0.
Proof. constructor; cbn; try constructor; try lia; tauto. Qed.

Lemma set_insert_in x k m : In x (set_insert k m) <-> x = k \/ In x m.
Proof.
  unfold set_insert. destruct (memN k m) eqn:E; cbn.
  - apply memN_In in E. split; [tauto|]. intros [->|]; auto.
  - intuition auto.
Qed.
Lemma set_insert_nd k m : NoDup m -> NoDup (set_insert k m).
Proof. intros H. unfold set_insert. destruct (memN k m) eqn:E; auto. constructor; auto. apply memN_nIn; auto. Qed.
Lemma set_remove_in x k m : In x (set_remove k m) <-> In x m /\ x <> k.
Proof. unfold set_remove. rewrite filter_In, negb_true_iff, N.eqb_neq. tauto. Qed.
Lemma set_remove_nd k m : NoDup m -> NoDup (set_remove k m).
Proof. intros H. apply NoDup_filter; auto. Qed.

Lemma without_notin k h : ~ In k (map fst h) -> without k h = h.
Proof.
  induction h as [|e h IH]; intros H; cbn; auto. cbn in H.
  destruct (N.eqb_spec (fst e) k); [tauto|]. cbn. f_equal. apply IH. tauto.
Qed.
Lemma without_in e k h : In e (without k h) <-> In e h /\ fst e <> k.
Proof. unfold without. rewrite filter_In, negb_true_iff, N.eqb_neq. tauto. Qed.
Lemma map_fst_without x k h : In x (map fst (without k h)) <-> In x (map fst h) /\ x <> k.
Proof.
  rewrite !in_map_iff. split.
  - intros (e & <- & H). apply without_in in H. destruct H. split; auto. exists e; auto.
  - intros ((e & <- & H) & Hne). exists e. split; auto. apply without_in; auto.
Qed.
Lemma take_out_eq k h : NoDup (map fst h) ->
  match take_out k h with
  | Some (e, rest) => fst e = k /\ rest = without k h /\ In e h /\ S (length rest) = length h
  | None => ~ In k (map fst h)
  end.
Proof.
  induction h as [|e h IH]; intros Hd; cbn; [tauto|]. inversion Hd as [|? ? H1 H2]; subst.
  destruct (N.eqb_spec (fst e) k) as [E|E]; cbn.
  - subst k. split; auto. split; [|auto]. symmetry. apply without_notin; auto.
  - specialize (IH H2). destruct (take_out k h) as [[x r]|].
    + destruct IH as (A & B & C & D). subst r. cbn. rewrite D. auto.
    + intros [|]; auto.
Qed.
Lemma filter_nd f (h : list (N * N)) : NoDup (map fst h) -> NoDup (map fst (filter f h)).
Proof.
  induction h as [|e h IH]; intros Hd; cbn; auto. inversion Hd as [|? ? H1 H2]; subst.
  destruct (f e); cbn; auto. constructor; auto. rewrite in_map_iff. intros (x & E & Hx).
  apply filter_In in Hx. apply H1. rewrite in_map_iff. exists x. tauto.
Qed.
Lemma sorted_filter f h : StronglySorted before h -> StronglySorted before (filter f h).
Proof.
  induction 1 as [|e h H IH Hf]; cbn; [constructor|]. destruct (f e); auto. constructor; auto.
  rewrite Forall_forall in *. intros x Hx. apply filter_In in Hx. apply Hf. tauto.
Qed.
Lemma sorted_snoc h e : StronglySorted before h -> Forall (fun x => before x e) h -> StronglySorted before (h ++ [e]).
Proof.
  induction 1 as [|x h H IH Hf]; intros Ha; cbn; [repeat constructor|]. inversion Ha; subst.
  constructor; auto. apply Forall_app. split; auto.
Qed.
Lemma forall_filter (P : N * N -> Prop) f h : Forall P h -> Forall P (filter f h).
Proof. rewrite !Forall_forall. intros H x Hx. apply filter_In in Hx. apply H. tauto. Qed.
Lemma sorted_tail h n : StronglySorted before h -> StronglySorted before (skipn n h).
Proof. revert n. induction h as [|e h IH]; intros [|n] H; cbn; auto. apply IH. inversion H; auto. Qed.
Lemma cap_id n h : (length h <= n)%nat -> cap n h = h.
Proof. intros H. unfold cap. replace (length h - n)%nat with 0%nat by lia. reflexivity. Qed.
Lemma without_len k h : (length (without k h) <= length h)%nat.
Proof. unfold without. induction h as [|e h IH]; cbn; [lia|]. destruct (negb (N.eqb (fst e) k)); cbn; lia. Qed.

(* Insertion *)
Lemma insert_ok c t now k : CI c t -> t <= now -> exists c' b o,
  cache_insert now k c = Some (c', (b, o)) /\ CI c' now /\ c_dur c' = c_dur c /\ c_max c' = c_max c /\
  c_list c' = cap (c_max c) (without k (c_list c) ++ [(k, now)]) /\
  (b = true <-> ~ In k (map fst (c_list c))) /\
  o = (if negb (memN k (map fst (c_list c))) && (c_max c =? length (c_list c))%nat
       then option_map fst (hd_error (c_list c)) else None).
Proof.
  intros [Hnd Hnm He Hl Hm Hs Ht] Hn.
  assert (Hfresh : Forall (fun x => before x (k, now)) (c_list c)).
  { rewrite Forall_forall in *. intros x Hx. specialize (Ht x Hx). unfold before; cbn. lia. }
  assert (Hle : Forall (fun e => snd e <= now) (c_list c)).
  { rewrite Forall_forall in *. intros x Hx. specialize (Ht x Hx). cbn in *. lia. }
  unfold cache_insert. destruct (memN k (c_map c)) eqn:E; cbn [negb].
  - apply memN_In in E. pose proof (proj1 (He k) E) as Hin.
    pose proof (take_out_eq k (c_list c) Hnd) as HT. destruct (take_out k (c_list c)) as [[e rest]|]; [|tauto].
    destruct HT as (A & B & C & D). subst rest. rewrite A in *.
    assert (Hlen : (length (without k (c_list c) ++ [(k, now)]) <= c_max c)%nat) by (rewrite app_length; cbn; lia).
    do 3 eexists. split; [reflexivity|]. cbn [c_dur c_max c_list].
    split; [|split; [auto|split; [auto|split; [symmetry; apply cap_id; auto|split]]]].
    + constructor; cbn [c_map c_list c_max]; auto.
      * rewrite map_app. cbn. apply NoDup_app_intro.
        -- apply filter_nd; auto.
        -- repeat constructor; auto.
        -- intros x Hx [<-|[]]. apply map_fst_without in Hx. tauto.
      * apply set_insert_nd; auto.
      * intros x. rewrite set_insert_in, map_app, in_app_iff, map_fst_without, He. cbn.
        destruct (N.eq_dec x k); subst; intuition auto.
      * apply sorted_snoc; [apply sorted_filter; auto|apply forall_filter; auto].
      * apply Forall_app. split; [apply forall_filter; auto|]. repeat constructor; cbn; lia.
    + split; [discriminate|tauto].
    + apply memN_In in Hin. rewrite Hin. reflexivity.
  - apply memN_nIn in E. assert (Hout : ~ In k (map fst (c_list c))) by (rewrite <- He; auto).
    rewrite (without_notin k) by auto. pose proof (proj2 (memN_nIn k (map fst (c_list c))) Hout) as Hmem. rewrite Hmem. cbn [negb andb].
    assert (Hnd' : NoDup (map fst (c_list c ++ [(k, now)]))).
    { rewrite map_app. apply NoDup_app_intro; auto; [repeat constructor; auto|]. cbn. intros x Hx [<-|[]]. auto. }
    assert (Hs' : StronglySorted before (c_list c ++ [(k, now)])) by (apply sorted_snoc; auto).
    assert (Ht' : Forall (fun e => snd e <= now) (c_list c ++ [(k, now)])).
    { apply Forall_app. split; auto. repeat constructor. cbn. lia. }
    assert (He' : forall x, In x (set_insert k (c_map c)) <-> In x (map fst (c_list c ++ [(k, now)]))).
    { intros x. rewrite set_insert_in, map_app, in_app_iff, He. cbn. intuition auto. }
    destruct (c_max c <? length (c_list c ++ [(k, now)]))%nat eqn:F.
    + apply Nat.ltb_lt in F. rewrite app_length in F. cbn in F.
      assert (EL : length (c_list c) = c_max c) by lia.
      destruct (c_list c) as [|o rest] eqn:EL2; [cbn in EL; lia|]. cbn [app].
      do 3 eexists. split; [reflexivity|]. cbn [c_dur c_max c_list hd_error option_map].
      rewrite <- EL, Nat.eqb_refl. cbn [length].
      split; [|split; [auto|split; [congruence|split; [|split; [tauto|auto]]]]].
      * constructor; cbn [c_map c_list c_max]; auto.
        -- inversion Hnd'; auto.
        -- apply set_remove_nd, set_insert_nd; auto.
        -- intros x. rewrite set_remove_in, He'. cbn. inversion Hnd'; subst.
           split; [intros [[<-|]]; tauto|]. intros H. split; auto. intros ->. auto.
        -- rewrite app_length. cbn in *. lia.
        -- rewrite <- EL in Hm. cbn in *; lia.
        -- inversion Hs'; auto.
        -- inversion Ht'; auto.
      * unfold cap. cbn [app length]. rewrite app_length. cbn [length].
        replace (S (length rest + 1) - S (length rest))%nat with 1%nat by lia. reflexivity.
    + apply Nat.ltb_ge in F. do 3 eexists. split; [reflexivity|]. cbn [c_dur c_max c_list].
      split; [|split; [auto|split; [auto|split; [symmetry; apply cap_id; auto|split; [tauto|]]]]].
      * constructor; cbn [c_map c_list c_max]; auto. apply set_insert_nd; auto.
      * rewrite app_length in F; cbn in F. destruct (Nat.eqb_spec (c_max c) (length (c_list c))); [lia|reflexivity].
Qed.

Lemma remove_ok c t k : CI c t -> exists c' b, cache_remove k c = Some (c', b) /\ CI c' t /\
  c_dur c' = c_dur c /\ c_max c' = c_max c /\ c_list c' = without k (c_list c) /\ (b = true <-> In k (map fst (c_list c))).
Proof.
  intros [Hnd Hnm He Hl Hm Hs Ht]. unfold cache_remove. destruct (memN k (c_map c)) eqn:E.
  - apply memN_In in E. pose proof (proj1 (He k) E) as Hin.
    pose proof (take_out_eq k (c_list c) Hnd) as HT. destruct (take_out k (c_list c)) as [[e rest]|]; [|tauto].
    destruct HT as (A & B & C & D). subst rest. do 2 eexists. split; [reflexivity|]. cbn [c_dur c_max c_list].
    split; [|tauto]. constructor; cbn [c_map c_list c_max]; auto.
    + apply filter_nd; auto.
    + apply set_remove_nd; auto.
    + intros x. rewrite set_remove_in, map_fst_without, He. tauto.
    + lia.
    + apply sorted_filter; auto.
    + apply forall_filter; auto.
  - apply memN_nIn in E. rewrite He in E. do 2 eexists. split; [reflexivity|].
    rewrite without_notin by auto. split; [constructor; auto|]. do 3 (split; auto). split; [discriminate|tauto].
Qed.

Lemma pop_ok now dur : forall l m, StronglySorted before l -> NoDup (map fst l) -> NoDup m ->
  (forall k, In k m <-> In k (map fst l)) ->
  let '(m', l', out) := pop_expired now dur m l in
  l' = unexpired dur now l /\ out = map fst (filter (fun e => negb (now <? snd e + dur)) l) /\
  NoDup m' /\ forall k, In k m' <-> In k (map fst l').
Proof.
  induction l as [|e l IH]; intros m Hs Hd Hm He; cbn [pop_expired]; [cbn; tauto|].
  inversion Hs as [|? ? Hs' Hf]; subst. inversion Hd as [|? ? Hn Hd']; subst.
  unfold unexpired. cbn [filter]. destruct (now <? snd e + dur) eqn:E; cbn [negb].
  - assert (Hall : forall f, (forall x, In x l -> f x = true) -> filter f l = l).
    { intros f. clear. induction l as [|a l IH]; intros H; cbn; auto. rewrite (H a) by (left; auto). f_equal.
      apply IH. intros; apply H; right; auto. }
    assert (Hnone : forall f, (forall x, In x l -> f x = false) -> filter f l = []).
    { intros f. clear. induction l as [|a l IH]; intros H; cbn; auto. rewrite (H a) by (left; auto).
      apply IH. intros; apply H; right; auto. }
    apply N.ltb_lt in E. rewrite Forall_forall in Hf.
    assert (Hlt : forall x, In x l -> (now <? snd x + dur) = true).
    { intros x Hx. specialize (Hf x Hx). unfold before in Hf. apply N.ltb_lt. lia. }
    rewrite Hall by auto. rewrite Hnone by (intros x Hx; rewrite Hlt; auto). auto.
  - assert (He' : forall k, In k (set_remove (fst e) m) <-> In k (map fst l)).
    { intros k. rewrite set_remove_in, He. cbn. split; [intros [[<-|]]; tauto|]. intros H. split; auto. intros ->. auto. }
    specialize (IH (set_remove (fst e) m) Hs' Hd' (set_remove_nd _ _ Hm) He').
    destruct (pop_expired now dur (set_remove (fst e) m) l) as [[m' l'] out]. destruct IH as (A & B & C & D).
    cbn [map]. subst out. auto.
Qed.
Lemma beat_ok c t now : CI c t -> t <= now -> let '(c', out) := cache_beat now c in
  CI c' now /\ c_dur c' = c_dur c /\ c_max c' = c_max c /\ c_list c' = unexpired (c_dur c) now (c_list c) /\
  out = map fst (filter (fun e => negb (now <? snd e + c_dur c)) (c_list c)).
Proof.
  intros [Hnd Hnm He Hl Hm Hs Ht] Hn. unfold cache_beat.
  pose proof (pop_ok now (c_dur c) (c_list c) (c_map c) Hs Hnd Hnm He) as H.
  destruct (pop_expired now (c_dur c) (c_map c) (c_list c)) as [[m l] out]. destruct H as (A & B & C & D).
  cbn [c_dur c_max c_list]. split; [|auto]. subst l. constructor; cbn [c_map c_list c_max]; auto.
  - apply filter_nd; auto.
  - eapply Nat.le_trans; [|exact Hl]. unfold unexpired. clear.
    induction (c_list c) as [|e h IH]; cbn; [lia|]. destruct (now <? snd e + c_dur c); cbn; lia.
  - apply sorted_filter; auto.
  - apply forall_filter. rewrite Forall_forall in *. intros x Hx. specialize (Ht x Hx). cbn in *. lia.
Qed.

Lemma step_ok c t e : CI c t -> (match when e with Some now => t <= now | None => True end) -> exists c',
  cstep c e = Some c' /\ CI c' (match when e with Some now => now | None => t end) /\ c_dur c' = c_dur c /\ c_max c' = c_max c /\
  c_list c' = held_step (c_dur c) (c_max c) (c_list c) e.
Proof.
  intros Hc Ht. destruct e as [now k|k|now]; cbn [when cstep held_step] in *.
  - destruct (insert_ok c t now k Hc Ht) as (c' & b & o & E & A & B & C & D & _). rewrite E. exists c'. auto.
  - destruct (remove_ok c t k Hc) as (c' & b & E & A & B & C & D & _). rewrite E. exists c'. auto.
  - pose proof (beat_ok c t now Hc Ht) as H. destruct (cache_beat now c) as [c' out]. cbn [fst].
    exists c'. tauto.
Qed.
Lemma run_ok l : forall c t, CI c t -> clock_from t l -> exists c' t', crun l c = Some c' /\ CI c' t' /\
  c_dur c' = c_dur c /\ c_max c' = c_max c /\ c_list c' = fold_left (held_step (c_dur c) (c_max c)) l (c_list c) /\
  (forall l2, clock_from t (l ++ l2) -> clock_from t' l2).
Proof.
  induction l as [|e l IH]; intros c t Hc Hk; cbn [crun fold_left].
  - exists c, t. auto 10.
  - cbn [clock_from] in Hk.
    assert (H1 : (match when e with Some now => t <= now | None => True end) /\
                 clock_from (match when e with Some now => now | None => t end) l).
    { destruct (when e); tauto. }
    destruct H1 as [H1 H2]. destruct (step_ok c t e Hc H1) as (c' & E & A & B & C & D). rewrite E.
    destruct (IH c' _ A H2) as (c2 & t2 & E2 & A2 & B2 & C2 & D2 & F2). exists c2, t2.
    rewrite E2, B2, C2, D2, B, C, D. split; [auto|]. split; [auto|]. do 3 (split; [auto|]).
    intros l2 Hl. cbn [app clock_from] in Hl. apply F2. destruct (when e); tauto.
Qed.
