(* The index invariant is kept by every operation. *)
From Verif Require Import Util HdxModel HdxSpec HdxProofs.

Section Cfg.
Variable c : hcfg.
Hypothesis OK : hcfg_ok c.
Notation hb := (hash_to_bucket c).
Notation core := (core c). Notation snap := (snap c). Notation inv := (inv c). Notation bok := (bok c).
Notation odx_ok := (odx_ok c).

(* core depends on these fields only *)
Lemma core_fields full sv s s' :
  core full sv s ->
  hx_buckets s' = hx_buckets s -> hx_mod s' = hx_mod s -> hx_cap s' = hx_cap s -> hx_odx s' = hx_odx s ->
  hx_osafe s' = hx_osafe s -> hx_clean s' = hx_clean s -> hx_dirty s' = hx_dirty s -> hx_file s' = hx_file s ->
  hx_values s' = hx_values s -> core full sv s'.
Proof.
  intros [A1 A2 A3 A4 A5 A6 A7 A8] E1 E2 E3 E4 E5 E6 E7 E8 E9.
  constructor; unfold cand in *; rewrite ?E1, ?E2, ?E3, ?E4, ?E5, ?E6, ?E7, ?E8, ?E9 in *; auto.
Qed.

(* ---------- load ---------- *)
Lemma remove_cand full sv s b x s' :
  core full sv s -> b < hx_buckets s -> remove_bucket s b = (inl x, s') ->
  bok (hx_odx s) (o_end (hx_odx s)) (hx_buckets s) (hx_mod s) sv full b x.
Proof.
  intros Hc Hb H. apply remove_bucket_spec in H as (cl & dr & _ & _ & _ & _ & _ & H).
  eapply i_bok; eauto.
Qed.

Lemma fetch_core full sv s k r s' :
  core full sv s -> fetch c s k = (r, s') ->
  core full sv s' /\
  (r = match find_key k sv with Some p => inl p | None => inr HNotFound end \/
   (full = false /\ exists e, r = inr e)) /\
  (exists cl ff dr, s' = with_caches s cl ff dr).
Proof.
  intros Hc. unfold fetch.
  pose proof (i_B _ _ _ _ Hc) as HB. pose proof (i_M _ _ _ _ Hc) as HM.
  assert (Hb : hb (hx_mod s) (hx_buckets s) k < hx_buckets s) by (rewrite HM; apply hb_bound; auto).
  set (b := hb (hx_mod s) (hx_buckets s) k) in *.
  destruct (remove_bucket s b) as [r0 s1] eqn:Er.
  pose proof Er as Er'. apply remove_bucket_spec in Er' as (cl & dr & E1 & E2 & E3 & E4 & E5 & E6).
  destruct r0 as [x|e].
  - pose proof (remove_cand _ _ _ _ _ _ Hc Hb Er) as Hx.
    destruct (bucket_items (hx_odx s1) x) as [l w] eqn:Ei.
    intros H; injection H as <- <-.
    assert (Ho : hx_odx s1 = hx_odx s) by (subst s1; auto). rewrite Ho in Ei.
    destruct Hx as (X1 & X2 & X3 & X4). rewrite Ei in X2, X3, X4; cbn [fst snd] in *.
    split; [|split].
    + destruct (aget (hx_dirty s) b) as [y|] eqn:Ed.
      * assert (y = x) as -> by (destruct E6 as [E6|[E6 _]]; congruence).
        subst s1. destruct Hc as [A1 A2 A3 A4 A5 A6 A7 A8].
        constructor; cbn [hx_buckets hx_mod hx_cap hx_odx hx_osafe hx_dirty hx_clean hx_file hx_values with_caches]; auto.
        -- apply aput_NoDup; auto.
        -- intros b' z Hb' Hcd. apply A6; auto. unfold cand in *; cbn [hx_dirty hx_clean hx_file with_caches] in *.
           rewrite aget_aput in Hcd. destruct (b =? b') eqn:E.
           ++ apply Nat.eqb_eq in E; subst b'. destruct Hcd as [H|[H _]]; [left; congruence|discriminate].
           ++ apply Nat.eqb_neq in E. destruct (E2 b') as [F1 F2]; [auto|]. rewrite F1, F2 in Hcd. auto.
        -- intros Hf b' Hb'. rewrite aget_aput. destruct (b =? b') eqn:E; [discriminate|].
           apply Nat.eqb_neq in E. destruct (E2 b') as [F1 F2]; [auto|]. rewrite F2. auto.
      * destruct (add_clean_fields c s1 b x) as (cl2 & ff2 & -> & Hcl).
        subst s1. destruct Hc as [A1 A2 A3 A4 A5 A6 A7 A8].
        constructor; cbn [hx_buckets hx_mod hx_cap hx_odx hx_osafe hx_dirty hx_clean hx_file hx_values with_caches]; auto.
        -- intros b' z Hb' Hcd. apply A6; auto. unfold cand in *; cbn [hx_dirty hx_clean hx_file with_caches] in *.
           destruct (Nat.eq_dec b' b) as [->|Hne].
           ++ rewrite E3 in Hcd. destruct Hcd as [H|[_ H]]; [discriminate|].
              destruct H as [H|H]; [|auto]. apply Hcl in H as [[_ ->]|[H _]]; [|tauto]. auto.
           ++ destruct (E2 b') as [F1 F2]; [auto|]. rewrite F2 in Hcd.
              destruct Hcd as [H|[H [H'|H']]]; auto.
              apply Hcl in H' as [[H' _]|[_ H']]; [tauto|]. rewrite <- F1. auto.
        -- intros Hf b' Hb' Hd. destruct (Nat.eq_dec b' b) as [->|Hne]; [auto|].
           destruct (E2 b') as [F1 F2]; [auto|]. rewrite F2 in Hd. auto.
    + destruct (find_key k l) as [p|] eqn:Ef.
      * left. rewrite (X3 _ _ Ef). auto.
      * destruct full.
        -- left. destruct X4 as [-> X4]; auto.
           destruct (find_key k sv) as [p|] eqn:Es; auto. rewrite (X4 k p) in Ef; auto. discriminate.
        -- right. split; auto. destruct w; eauto.
    + destruct (aget (hx_dirty s) b); [subst s1; do 3 eexists; reflexivity|].
      destruct (add_clean_fields c s1 b x) as (cl2 & ff2 & -> & Hcl). subst s1. do 3 eexists; reflexivity.
  - intros H. cbv beta iota in H. injection H as <- <-.
    destruct E6 as [E6 E7].
    assert (full = false) as Hf.
    { destruct full; auto. destruct (i_full _ _ _ _ Hc eq_refl b Hb E6) as [x Hx]. exfalso. eapply E7; eauto. }
    split; [|split; [right; simpl; eauto|subst s1; do 3 eexists; reflexivity]].
    subst s1. destruct Hc as [A1 A2 A3 A4 A5 A6 A7 A8].
    constructor; cbn [hx_buckets hx_mod hx_cap hx_odx hx_osafe hx_dirty hx_clean hx_file hx_values with_caches]; auto.
    + intros b' z Hb' Hcd. apply A6; auto. unfold cand in *; cbn [hx_dirty hx_clean hx_file with_caches] in *.
      destruct (Nat.eq_dec b' b) as [->|Hne].
      * rewrite E3 in Hcd. destruct Hcd as [H|[_ [H|H]]]; [discriminate|auto|auto].
      * destruct (E2 b') as [F1 F2]; [auto|]. rewrite F1, F2 in Hcd. auto.
    + congruence.
Qed.

(* ---------- split ---------- *)
Lemma split_core full sv s r s' :
  core full sv s -> split_one c s = (r, s') ->
  (r = ROk /\ core full sv (with_cap s' (hx_buckets s' * hc_elems c)) /\ hx_buckets s' = hx_buckets s + 1 /\
   hx_values s' = hx_values s /\ hx_bloom s' = hx_bloom s /\ hx_ro s' = hx_ro s /\ hx_synced s' = hx_synced s /\
   hx_dlen s' = hx_dlen s /\ hx_file s' = hx_file s /\ hx_osafe s' = hx_osafe s /\
   (forall q, q < o_end (hx_odx s) -> o_cell (hx_odx s') q = o_cell (hx_odx s) q) /\
   o_end (hx_odx s) <= o_end (hx_odx s')) \/
  (full = false /\ exists e, r = RErr e).
Proof.
  intros Hc. unfold split_one.
  pose proof (i_B _ _ _ _ Hc) as HB. pose proof (i_M _ _ _ _ Hc) as HM. pose proof (i_odx _ _ _ _ Hc) as HO.
  set (B := hx_buckets s) in *. set (M := hx_mod s) in *.
  set (sb := B - M / 2). set (M' := npow2 (B + 1 + 1)).
  assert (Hsp : forall k, sb < B /\ (hb M B k <> sb -> hb M' (B + 1) k = hb M B k) /\
                 (hb M B k = sb -> hb M' (B + 1) k = sb \/ hb M' (B + 1) k = B)).
  { intros k. unfold sb, M'. rewrite HM. apply (hb_split c B k HB). }
  assert (Hspn : forall k, (hb M' (B + 1) k = sb \/ hb M' (B + 1) k = B) -> hb M B k = sb).
  { intros k. unfold sb, M'. rewrite HM. apply (hb_split_new c B k HB). }
  assert (Hsb : sb < B) by (destruct (Hsp []) as [H _]; auto).
  replace (B + 1 - 1) with B by lia.
  destruct (remove_bucket (with_geom s (B + 1) M') sb) as [r0 s2] eqn:Er.
  apply remove_bucket_spec in Er as (cl & dr & E1 & E2 & E3 & E4 & E5 & E6).
  assert (HM2 : hx_mod s2 = M') by (subst s2; auto). assert (HB2 : hx_buckets s2 = B + 1) by (subst s2; auto).
  assert (HO2 : hx_odx s2 = hx_odx s) by (subst s2; auto). rewrite HM2, HB2, HO2.
  cbn [hx_clean hx_dirty hx_file with_geom] in E2, E3, E4, E5.
  destruct r0 as [x|e].
  - assert (Hx : bok (hx_odx s) (o_end (hx_odx s)) B M sv full sb x).
    { eapply i_bok; eauto. }
    destruct (bucket_items (hx_odx s) x) as [l w] eqn:Ei.
    destruct Hx as (X1 & X2 & X3 & X4). rewrite Ei in X2, X3, X4; cbn [fst snd] in *.
    assert (H0 : 0 < o_end (hx_odx s)) by (destruct HO; lia).
    destruct (split_loop_spec c OK M' (B + 1) sb B (hx_osafe s) ltac:(lia) l [] (hx_odx s) bucket0 bucket0 HO H0 H0)
      as (o' & x1 & x2 & E & R1 & R2 & R3 & R4 & R5 & R6 & R7 & R8 & R9).
    { intros k Hk. destruct (Hsp k) as [_ [_ H]]. apply H. auto. }
    rewrite E.
    assert (HR8 : forall k, find_key k (fst (bucket_items o' x1)) = if hb M' (B + 1) k =? sb then find_key k l else None).
    { intros k. rewrite R8. cbn [existsb]. replace (find_key k (fst (bucket_items (hx_odx s) bucket0))) with (@None pos) by reflexivity.
      destruct (hb M' (B + 1) k =? sb); auto. destruct (find_key k l); auto. }
    assert (HR9 : forall k, find_key k (fst (bucket_items o' x2)) = if hb M' (B + 1) k =? sb then None else find_key k l).
    { intros k. rewrite R9. cbn [existsb]. replace (find_key k (fst (bucket_items (hx_odx s) bucket0))) with (@None pos) by reflexivity.
      destruct (hb M' (B + 1) k =? sb); auto. destruct (find_key k l); auto. }
    assert (HR6 : snd (bucket_items o' x1) = WDone) by (rewrite R6; reflexivity).
    assert (HR7 : snd (bucket_items o' x2) = WDone) by (rewrite R7; reflexivity).
    destruct w.
    2: { intros H; injection H as <- <-. right. destruct full; [destruct (X4 eq_refl) as [H _]; discriminate|eauto]. }
    (* the split went through: same argument for both remaining ends of the walk *)
    all: intros H; injection H as <- <-.
    all: left; split; [auto|].
    all: subst s2; cbn [hx_buckets hx_values hx_bloom hx_ro hx_synced hx_dlen hx_file hx_osafe hx_odx hx_clean hx_dirty hx_fifo with_caches with_odx with_geom with_cap hx_mod hx_cap] in *.
    all: split; [|repeat (split; [solve [auto]|]); auto].
    all: destruct Hc as [A1 A2 A3 A4 A5 A6 A7 A8].
    all: constructor; cbn [hx_buckets hx_values hx_bloom hx_ro hx_synced hx_dlen hx_file hx_osafe hx_odx hx_clean hx_dirty hx_fifo with_caches with_odx with_geom with_cap hx_mod hx_cap]; auto; try lia.
    all: try (apply aput_NoDup; apply aput_NoDup; auto).
    (* buckets *)
    1, 3: intros b' y Hb' Hcd; unfold cand in Hcd; cbn [hx_dirty hx_clean hx_file with_caches with_odx with_geom with_cap] in Hcd;
       rewrite !aget_aput in Hcd; destruct (B =? b') eqn:EB;
       [ apply Nat.eqb_eq in EB; subst b'; destruct Hcd as [H|[H _]]; [injection H as <-|discriminate];
         split; [auto|]; split;
         [ intros k; rewrite HR9; destruct (hb M' (B + 1) k =? sb) eqn:Ek; [congruence|];
           intros Hk; apply Nat.eqb_neq in Ek; destruct (Hsp k) as [_ [_ Hs3]]; destruct Hs3; [apply X2; auto|tauto|auto]
         | split;
           [ intros k p; rewrite HR9; destruct (hb M' (B + 1) k =? sb); [discriminate|]; apply X3
           | intros Hf; split; [auto|]; intros k p Hk Hp; rewrite HR9;
             destruct (hb M' (B + 1) k =? sb) eqn:Ek; [apply Nat.eqb_eq in Ek; lia|];
             apply X4; auto ] ]
       | apply Nat.eqb_neq in EB; destruct (sb =? b') eqn:ES;
         [ apply Nat.eqb_eq in ES; subst b'; destruct Hcd as [H|[H _]]; [injection H as <-|discriminate];
           split; [auto|]; split;
           [ intros k; rewrite HR8; destruct (hb M' (B + 1) k =? sb) eqn:Ek; [|congruence];
             intros Hk; apply Nat.eqb_eq in Ek; auto
           | split;
             [ intros k p; rewrite HR8; destruct (hb M' (B + 1) k =? sb); [|discriminate]; apply X3
             | intros Hf; split; [auto|]; intros k p Hk Hp; rewrite HR8, Hk, Nat.eqb_refl; apply X4; auto ] ]
         | apply Nat.eqb_neq in ES;
           assert (Hold : bok (hx_odx s) (o_end (hx_odx s)) B M sv full b' y);
           [ apply A6; [lia|]; unfold cand; destruct (E2 b' ltac:(auto)) as [F1 F2]; rewrite F1, F2 in Hcd; exact Hcd |];
           assert (Hold2 : bok o' (o_end o') B M sv full b' y) by (eapply bok_agree; [exact R3|exact R2|exact Hold]);
           destruct Hold2 as (O1 & O2 & O3 & O4); split; [auto|]; split;
           [ intros k Hk; specialize (O2 k Hk); destruct (Hsp k) as [_ [Hs2 _]]; rewrite Hs2; [auto|lia]
           | split; [auto|]; intros Hf; destruct (O4 Hf) as [O5 O6]; split; [auto|];
             intros k p Hk Hp; apply O6; [|auto];
             destruct (Nat.eq_dec (hb M B k) sb) as [Hs|Hs];
             [ destruct (Hsp k) as [_ [_ Hs3]]; specialize (Hs3 Hs); lia
             | destruct (Hsp k) as [_ [Hs2 _]]; rewrite <- (Hs2 Hs); auto ] ] ] ].
    all: intros Hf b' Hb'; rewrite !aget_aput; destruct (B =? b') eqn:EB; [discriminate|];
         destruct (sb =? b') eqn:ES; [discriminate|];
         apply Nat.eqb_neq in EB; apply Nat.eqb_neq in ES;
         destruct (E2 b' ltac:(auto)) as [F1 F2]; rewrite F2; intros Hd; apply A7; auto; lia.
  - cbn [hx_dirty hx_file with_geom] in E6. destruct E6 as [E6 E7].
    assert (full = false) as Hf.
    { destruct full; auto. destruct (i_full _ _ _ _ Hc eq_refl sb Hsb E6) as [y Hy]. exfalso. eapply E7; eauto. }
    cbn [split_loop]. intros H; injection H as <- <-. right. eauto.
Qed.

Definition frame (s s' : hdx) : Prop :=
  hx_values s' = hx_values s /\ hx_bloom s' = hx_bloom s /\ hx_ro s' = hx_ro s /\ hx_synced s' = hx_synced s /\
  hx_dlen s' = hx_dlen s /\ hx_file s' = hx_file s /\ hx_osafe s' = hx_osafe s /\
  (forall q, q < o_end (hx_odx s) -> o_cell (hx_odx s') q = o_cell (hx_odx s) q) /\
  o_end (hx_odx s) <= o_end (hx_odx s').

Lemma expand_core full sv fuel : forall s r s',
  core full sv s -> hx_values s < hx_buckets s + fuel -> expand c fuel s = (r, s') ->
  (r = ROk /\ core full sv s' /\ frame s s') \/ (full = false /\ exists e, r = RErr e).
Proof.
  induction fuel as [|fuel IH]; intros s r s' Hc Hf; cbn [expand].
  - destruct (hc_thresh c (hx_cap s) <=? hx_values s) eqn:E.
    + exfalso. apply Nat.leb_le in E. rewrite (i_cap _ _ _ _ Hc) in E.
      pose proof (ho_thresh c OK (hx_buckets s)). lia.
    + intros H; injection H as <- <-. left. split; auto. split; auto. unfold frame. auto 12.
  - destruct (hc_thresh c (hx_cap s) <=? hx_values s) eqn:E.
    + destruct (split_one c s) as [r1 s1] eqn:Es.
      destruct (split_core _ _ _ _ _ Hc Es) as [(-> & Hc1 & F0 & F1 & F2 & F3 & F4 & F5 & F6 & F7 & F8 & F9)|[Hx [e ->]]].
      * intros H. apply IH in H; auto.
        2: { cbn [hx_values hx_buckets with_cap]. lia. }
        destruct H as [(-> & Hc2 & G)|H]; [left|right; auto].
        split; auto. split; auto. unfold frame in *. cbn [hx_values hx_bloom hx_ro hx_synced hx_dlen hx_file hx_osafe hx_odx with_cap] in G.
        destruct G as (G1 & G2 & G3 & G4 & G5 & G6 & G7 & G8 & G9).
        repeat (split; [congruence|]). split; [|lia]. intros q Hq. rewrite G8 by lia. auto.
      * intros H; injection H as <- <-. right. eauto.
    + intros H; injection H as <- <-. left. split; auto. split; auto. unfold frame. auto 12.
Qed.

(* ---------- save ---------- *)
Lemma save_to_bucket_core full sv s k p r s' :
  core full sv s -> save_to_bucket c s k p = (r, s') ->
  (r = ROk /\ core full ((k, p) :: sv) s' /\
   hx_bloom s' = hx_bloom s /\ hx_ro s' = hx_ro s /\ hx_synced s' = hx_synced s /\
   hx_dlen s' = hx_dlen s /\ hx_file s' = hx_file s /\ hx_osafe s' = hx_osafe s /\
   (forall q, q < o_end (hx_odx s) -> o_cell (hx_odx s') q = o_cell (hx_odx s) q) /\
   o_end (hx_odx s) <= o_end (hx_odx s')) \/
  (full = false /\ exists e, r = RErr e).
Proof.
  intros Hc. unfold save_to_bucket.
  pose proof (i_B _ _ _ _ Hc) as HB. pose proof (i_M _ _ _ _ Hc) as HM. pose proof (i_odx _ _ _ _ Hc) as HO.
  assert (Hb : hb (hx_mod s) (hx_buckets s) k < hx_buckets s) by (rewrite HM; apply hb_bound; auto).
  set (b := hb (hx_mod s) (hx_buckets s) k) in *.
  destruct (remove_bucket s b) as [r0 s1] eqn:Er.
  pose proof Er as Er'. apply remove_bucket_spec in Er' as (cl & dr & E1 & E2 & E3 & E4 & E5 & E6).
  destruct r0 as [x|e].
  - pose proof (remove_cand _ _ _ _ _ _ Hc Hb Er) as Hx.
    assert (Ho : hx_odx s1 = hx_odx s) by (subst s1; auto). rewrite Ho.
    destruct (save_buf c (hx_odx s) x k p) as [[x' o'] inc] eqn:Esv.
    destruct Hx as (X1 & X2 & X3 & X4).
    destruct (save_buf_spec c OK _ _ _ _ _ _ _ _ HO X1 Esv) as (S1 & S2 & S3 & S4 & S5 & S6 & S7).
    intros H; injection H as <- <-. left. split; auto.
    assert (Hcnt : count_ok (if inc then hx_values s + 1 else hx_values s) ((k, p) :: sv)).
    { apply count_ok_save; [apply (i_cnt _ _ _ _ Hc)|].
      intros Hi. specialize (S7 Hi). destruct (find_key k (fst (bucket_items (hx_odx s) x))) as [q|] eqn:Eq; [|congruence].
      rewrite (X3 _ _ Eq). congruence. }
    split.
    + destruct Hc as [A1 A2 A3 A4 A5 A6 A7 A8]. subst s1.
      destruct inc; constructor;
        cbn [hx_buckets hx_values hx_bloom hx_ro hx_synced hx_dlen hx_file hx_osafe hx_odx hx_clean hx_dirty hx_fifo with_caches with_odx with_values hx_mod hx_cap]; auto;
        try (apply aput_NoDup; auto).
      1, 3: intros b' y Hb' Hcd; unfold cand in Hcd; cbn [hx_dirty hx_clean hx_file with_caches with_odx with_values] in Hcd;
         rewrite aget_aput in Hcd; destruct (b =? b') eqn:EB;
         [ apply Nat.eqb_eq in EB; subst b'; destruct Hcd as [H|[H _]]; [injection H as <-|discriminate];
           split; [auto|]; split;
           [ intros k' Hk'; rewrite S6 in Hk'; destruct (keqb k' k) eqn:Ek; [apply keqb_eq in Ek; subst k'; reflexivity|auto]
           | split;
             [ intros k' p' Hk'; rewrite S6 in Hk'; rewrite find_key_cons, keqb_sym; destruct (keqb k' k); [auto|]; apply X3; auto
             | intros Hf; destruct (X4 Hf) as [X5 X6]; split; [congruence|];
               intros k' p' Hh Hp; rewrite S6; rewrite find_key_cons, keqb_sym in Hp; destruct (keqb k' k); [auto|]; apply X6; auto ] ]
         | apply Nat.eqb_neq in EB;
           assert (Hold : bok (hx_odx s) (o_end (hx_odx s)) (hx_buckets s) (hx_mod s) sv full b' y);
           [ apply A6; [auto|]; unfold cand; destruct (E2 b' ltac:(auto)) as [F1 F2]; rewrite F1, F2 in Hcd; exact Hcd |];
           assert (Hold2 : bok o' (o_end o') (hx_buckets s) (hx_mod s) sv full b' y) by (eapply bok_agree; [exact S3|exact S2|exact Hold]);
           destruct Hold2 as (O1 & O2 & O3 & O4); split; [auto|]; split; [auto|]; split;
           [ intros k' p' Hk'; rewrite find_key_cons; destruct (keqb k k') eqn:Ek;
             [ exfalso; apply keqb_eq in Ek; subst k'; apply EB; apply O2; congruence | apply O3; auto ]
           | intros Hf; destruct (O4 Hf) as [O5 O6]; split; [auto|]; intros k' p' Hh Hp;
             rewrite find_key_cons in Hp; destruct (keqb k k') eqn:Ek;
             [ exfalso; apply keqb_eq in Ek; subst k'; apply EB; exact Hh | apply O6; auto ] ] ].
      all: intros Hf b' Hb'; rewrite aget_aput; destruct (b =? b') eqn:EB; [discriminate|];
           apply Nat.eqb_neq in EB; destruct (E2 b' ltac:(auto)) as [F1 F2]; rewrite F2; intros Hd; apply A7; auto.
    + subst s1. destruct inc; cbn [hx_buckets hx_values hx_bloom hx_ro hx_synced hx_dlen hx_file hx_osafe hx_odx hx_clean hx_dirty hx_fifo with_caches with_odx with_values hx_mod hx_cap]; auto 12.
  - intros H; injection H as <- <-. destruct E6 as [E6 E7]. right.
    split; [|eauto]. destruct full; auto. destruct (i_full _ _ _ _ Hc eq_refl b Hb E6) as [y Hy]. exfalso. eapply E7; eauto.
Qed.

Lemma save_inv full sp s k p r s' :
  inv full sp s -> save c s k p = (r, s') ->
  (p_ro sp = true /\ r = RErr HReadOnly /\ s' = s) \/
  (p_ro sp = false /\ r = ROk /\
   inv full (mk_hspec (mk_hmap ((k, p) :: m_saves (p_cur sp)) (m_dlen (p_cur sp))) (p_safe sp) false) s') \/
  (p_ro sp = false /\ full = false /\ exists e, r = RErr e).
Proof.
  intros [V1 V2 V3 V4 V5 V6]. unfold save. destruct (hx_ro s) eqn:Ero.
  { intros H; injection H as <- <-. left. auto. }
  cbv zeta.
  destruct (expand c (S (hx_values (with_synced s false))) (with_synced s false)) as [r1 s1] eqn:Ee.
  assert (Hc0 : core full (m_saves (p_cur sp)) (with_synced s false)) by (eapply core_fields; [exact V1|..]; reflexivity).
  apply (expand_core full (m_saves (p_cur sp))) in Ee; auto.
  2: { pose proof (i_B _ _ _ _ Hc0). lia. }
  destruct Ee as [(-> & Hc1 & F)|[Hf [e ->]]].
  2: { intros H; injection H as <- <-. right. right. split; [congruence|]. split; [auto|]. eauto. }
  destruct F as (F1 & F2 & F3 & F4 & F5 & F6 & F7 & F8 & F9).
  cbn [hx_values hx_bloom hx_ro hx_synced hx_dlen hx_file hx_osafe hx_odx with_synced] in *.
  intros H.
  assert (Hc2 : core full (m_saves (p_cur sp)) (with_bloom s1 (bl_accrue c (hx_bloom s1) k))) by (eapply core_fields; [exact Hc1|..]; reflexivity).
  apply (save_to_bucket_core full (m_saves (p_cur sp))) in H; auto.
  destruct H as [(-> & Hc3 & G1 & G2 & G3 & G4 & G5 & G6 & G7 & G8)|[Hf [e ->]]].
  2: { right. right. split; [congruence|]. split; [auto|]. eauto. }
  cbn [hx_values hx_bloom hx_ro hx_synced hx_dlen hx_file hx_osafe hx_odx with_bloom] in *.
  right. left. split; [congruence|]. split; [auto|].
  constructor; cbn [p_cur p_safe p_ro m_saves m_dlen]; auto.
  - rewrite G1, F2. apply bloom_ok_accrue; auto.
  - congruence.
  - congruence.
  - congruence.
  - rewrite G5, G6, F6, F7. eapply snap_agree; [|apply le_n|exact V6].
    destruct (i_odx _ _ _ _ V1) as [Hs _].
    intros q Hq. rewrite G7 by lia. apply F8. lia.
Qed.

(* ---------- flush ---------- *)
Lemma write_back_spec l : forall s,
  exists cl ff f, write_back c l s = with_file (with_caches s cl ff (hx_dirty s)) f /\
    f_buckets f = f_buckets (hx_file s) /\ f_values f = f_values (hx_file s) /\ f_dlen f = f_dlen (hx_file s) /\
    f_bloom f = f_bloom (hx_file s) /\
    (forall b y, aget cl b = Some y -> In (b, y) l \/ (~ In b (map fst l) /\ aget (hx_clean s) b = Some y)) /\
    (forall b, (~ In b (map fst l) /\ f_cell f b = f_cell (hx_file s) b) \/ (exists x, In (b, x) l /\ f_cell f b = CGood x)).
Proof.
  induction l as [|[b0 x0] l IH]; intros s; cbn [write_back].
  - exists (hx_clean s), (hx_fifo s), (hx_file s). split; [destruct s; reflexivity|].
    do 4 (split; [auto|]). split; [auto|]. left; auto.
  - destruct (add_clean_fields c (with_file s (put_cell (hx_file s) b0 (CGood x0))) b0 x0) as (cl1 & ff1 & -> & Hcl).
    destruct (IH (with_caches (with_file s (put_cell (hx_file s) b0 (CGood x0))) cl1 ff1
                    (hx_dirty (with_file s (put_cell (hx_file s) b0 (CGood x0)))))) as (cl & ff & f & -> & G1 & G2 & G3 & G4 & G5 & G6).
    cbn [hx_file hx_clean hx_dirty hx_fifo with_caches with_file put_cell f_buckets f_values f_dlen f_bloom] in *.
    exists cl, ff, f. split; [reflexivity|]. do 4 (split; [assumption|]). split.
    + intros b y Hy. destruct (G5 b y Hy) as [H|[H1 H2]]; [left; simpl; auto|].
      apply Hcl in H2 as [[-> ->]|[H2 H3]]; [left; simpl; auto|].
      right. split; auto. simpl. intros [H|H]; auto.
    + intros b. destruct (G6 b) as [[H1 H2]|[x [H1 H2]]].
      * unfold f_cell in H2 |- *. cbn [f_cells put_cell] in H2. rewrite aget_aput in H2.
        destruct (b0 =? b) eqn:E.
        -- apply Nat.eqb_eq in E; subst. right. exists x0. simpl; auto.
        -- apply Nat.eqb_neq in E. left. simpl. split; [intros [H|H]; auto|]. auto.
      * right. exists x. simpl; auto.
Qed.

Lemma flush_inv full sp s : inv full sp s -> inv full (mk_hspec (p_cur sp) (p_cur sp) (p_ro sp)) (flush_all c s) .
Proof.
  intros [V1 V2 V3 V4 V5 V6]. unfold flush_all, save_bucket_cache.
  destruct (write_back_spec (hc_drain c (hx_dirty s)) (with_caches s (hx_clean s) (hx_fifo s) [])) as (cl & ff & f & -> & G1 & G2 & G3 & G4 & G5 & G6).
  unfold write_header.
  cbn [hx_buckets hx_values hx_bloom hx_ro hx_synced hx_dlen hx_file hx_osafe hx_odx hx_clean hx_dirty hx_fifo with_caches with_odx with_values with_file with_osafe hx_mod hx_cap] in *.
  destruct V1 as [A1 A2 A3 A4 A5 A6 A7 A8].
  pose proof (ho_drain c OK (hx_dirty s)) as HP.
  set (f' := mk_hfile (hx_buckets s) (hx_values s) (hx_dlen s) (hx_bloom s) (f_cells f)).
  assert (HD : forall b x, In (b, x) (hc_drain c (hx_dirty s)) -> aget (hx_dirty s) b = Some x).
  { intros b x H. apply In_aget; auto. eapply Permutation_in; eauto. }
  assert (HN : forall b, ~ In b (map fst (hc_drain c (hx_dirty s))) -> aget (hx_dirty s) b = None).
  { intros b H. destruct (aget (hx_dirty s) b) eqn:E; auto. exfalso. apply H. apply aget_In in E.
    apply in_map_iff. exists (b, b0). split; auto. eapply Permutation_in; [apply Permutation_sym; eauto|auto]. }
  assert (Hcell : forall b x, f_cell f' b = CGood x -> cand s b x).
  { intros b x. change (f_cell f' b) with (f_cell f b). intros H. destruct (G6 b) as [[H1 H2]|[y [H1 H2]]].
    - right. split; [auto|]. right. congruence.
    - left. rewrite H in H2. injection H2 as ->. auto. }
  assert (Hfull : full = true -> forall b, b < hx_buckets s -> exists x, f_cell f' b = CGood x).
  { intros Hf b Hb. change (f_cell f' b) with (f_cell f b). destruct (G6 b) as [[H1 H2]|[y [H1 H2]]]; [|eauto].
    rewrite H2. apply A7; auto. }
  assert (HO : odx_ok (hx_odx s) (o_end (hx_odx s))).
  { destruct A4 as [B1 B2]. split; [lia|]. intros p x Hp. specialize (B2 p x Hp). lia. }
  constructor; cbn [p_cur p_safe p_ro]; auto.
  - constructor; cbn [hx_buckets hx_values hx_bloom hx_ro hx_synced hx_dlen hx_file hx_osafe hx_odx hx_clean hx_dirty hx_fifo with_caches with_odx with_values with_file with_osafe hx_mod hx_cap]; auto.
    + constructor.
    + intros b x Hb Hcd. apply A6; auto. unfold cand in Hcd. cbn [hx_dirty hx_clean hx_file aget with_caches with_file with_osafe open_hdx] in Hcd.
      destruct Hcd as [H|[_ [H|H]]]; [discriminate| |auto].
      destruct (G5 b x H) as [H1|[H1 H2]]; [left; auto|right; auto].
  - cbn [hx_file hx_odx hx_osafe]. constructor; cbn [f_buckets f_values f_dlen f_bloom f']; auto.
    intros b x Hb Hx. change (bok (hx_odx s) (o_end (hx_odx s)) (hx_buckets s) (npow2 (hx_buckets s + 1)) (m_saves (p_cur sp)) full b x).
    rewrite <- A2. apply A6; auto.
Qed.


Lemma inv_synced full sp s b : p_cur sp = p_safe sp -> inv full sp s -> inv full sp (with_synced s b).
Proof.
  intros He [V1 V2 V3 V4 V5 V6]. constructor; auto. eapply core_fields; eauto.
Qed.

(* ---------- open ---------- *)
Lemma open_inv full m f o safe ro :
  snap full m f o safe -> odx_ok o safe -> inv full (mk_hspec m m ro) (open_hdx c f o safe ro).
Proof.
  intros [A1 A2 A3 A4 A5 A6] HO. unfold open_hdx.
  constructor; cbn [p_cur p_safe p_ro]; auto.
  - constructor; cbn [hx_buckets hx_values hx_bloom hx_ro hx_synced hx_dlen hx_file hx_osafe hx_odx hx_clean hx_dirty hx_fifo hx_mod hx_cap]; auto.
    + constructor.
    + intros b x Hb Hc. unfold cand in Hc; cbn [hx_dirty hx_clean hx_file aget with_caches with_file with_osafe open_hdx] in Hc.
      destruct Hc as [H|[_ [H|H]]]; try discriminate.
      eapply bok_agree; [| |apply A2; eauto]; auto. destruct HO; lia.
  - constructor; auto.
Qed.

Lemma cut_ok o safe e : odx_ok o safe -> safe <= e <= o_end o ->
  odx_ok (cut_odx c o e) safe /\ (forall q, q < safe -> o_cell (cut_odx c o e) q = o_cell o q).
Proof.
  intros [H1 H2] He. unfold cut_odx. split.
  - split; cbn [o_end o_recs]; [lia|]. intros p x H.
    assert (Hin : In (p, x) (filter (fun r => fst r + hc_bsize c <=? e) (o_recs o))) by (apply aget_In; auto).
    apply filter_In in Hin as [Hin Hle]. cbn [fst] in Hle. apply Nat.leb_le in Hle.
    destruct (In_aget_some (o_recs o) p) as [y Hy]; [apply in_map_iff; exists (p, x); auto|].
    specialize (H2 p y Hy). lia.
  - intros q Hq. unfold o_cell; cbn [o_recs].
    assert (Hk : forall l, (forall p x, aget l p = Some x -> p = q -> q + hc_bsize c <= safe) ->
               aget (filter (fun r : nat * cell => fst r + hc_bsize c <=? e) l) q = aget l q).
    { induction l as [|[p x] l IH]; intros Hl; auto. cbn [filter fst].
      destruct (p =? q) eqn:E.
      - apply Nat.eqb_eq in E; subst p.
        assert (q + hc_bsize c <= safe) by (eapply (Hl q x); [cbn [aget]; rewrite Nat.eqb_refl; auto|auto]).
        assert (q + hc_bsize c <=? e = true) as -> by (apply Nat.leb_le; lia).
        cbn [aget]. rewrite Nat.eqb_refl. auto.
      - assert (Hl' : forall p0 x0, aget l p0 = Some x0 -> p0 = q -> q + hc_bsize c <= safe).
        { intros p0 x0 H0 ->. apply (Hl q x0); auto. cbn [aget]. rewrite E. auto. }
        destruct (p + hc_bsize c <=? e); cbn [aget]; rewrite ?E; auto. }
    rewrite Hk; auto. intros p x Hp ->. specialize (H2 q x Hp). lia.
Qed.

(* ---------- damage ---------- *)
Lemma find_prefix k a t p : find_key k a = Some p -> find_key k (a ++ t) = Some p.
Proof. intros H. rewrite find_key_app, H. auto. Qed.

Lemma bok_rot o o' n B M sv b x :
  (forall q y, o_cell o' q = CGood y -> o_cell o q = CGood y) ->
  bok o n B M sv false b x -> bok o' n B M sv false b x.
Proof.
  intros Ha (H1 & H2 & H3 & H4). destruct (items_prefix o o' x Ha) as [t Ht]. rewrite Ht in *.
  split; auto. split; [|split; [|discriminate]].
  - intros k Hk. apply H2. destruct (find_key k (fst (bucket_items o' x))) eqn:E; [|congruence].
    rewrite (find_prefix _ _ t _ E). congruence.
  - intros k p Hk. apply H3. apply find_prefix. auto.
Qed.

Lemma rot_odx_inv sp s p x cr : aget (o_recs (hx_odx s)) p = Some x -> inv false sp s ->
  inv false sp (with_odx s (mk_ofile (aput (o_recs (hx_odx s)) p (rotted cr)) (o_end (hx_odx s)))).
Proof.
  intros Hp [V1 V2 V3 V4 V5 V6].
  set (o' := mk_ofile (aput (o_recs (hx_odx s)) p (rotted cr)) (o_end (hx_odx s))).
  assert (Ha : forall q y, o_cell o' q = CGood y -> o_cell (hx_odx s) q = CGood y).
  { intros q y. unfold o_cell, o'; cbn [o_recs]. rewrite aget_aput. destruct (p =? q); auto.
    destruct cr; discriminate. }
  destruct V1 as [A1 A2 A3 A4 A5 A6 A7 A8].
  constructor; auto.
  - constructor; cbn [hx_buckets hx_values hx_bloom hx_ro hx_synced hx_dlen hx_file hx_osafe hx_odx hx_clean hx_dirty hx_fifo with_odx hx_mod hx_cap]; auto.
    + destruct A4 as [B1 B2]. split; [exact B1|]. intros q y. cbn [o_recs o' o_end]. rewrite aget_aput.
      destruct (p =? q) eqn:E; [|apply B2]. apply Nat.eqb_eq in E; subst q. intros _. apply (B2 p x). auto.
    + intros b y Hb Hc. apply (bok_rot (hx_odx s)); auto. 
  - cbn [hx_file hx_odx hx_osafe with_odx]. destruct V6 as [B1 B2 B3 B4 B5 B6]. constructor; auto.
    intros b y Hb Hy. apply (bok_rot (hx_odx s)); auto.
Qed.

Lemma rot_cell_inv sp s b cr : inv false sp s -> inv false sp (with_file s (put_cell (hx_file s) b (rotted cr))).
Proof.
  intros [V1 V2 V3 V4 V5 V6].
  assert (Hf : forall b' y, f_cell (put_cell (hx_file s) b (rotted cr)) b' = CGood y -> f_cell (hx_file s) b' = CGood y).
  { intros b' y. unfold f_cell, put_cell; cbn [f_cells]. rewrite aget_aput. destruct (b =? b'); auto. destruct cr; discriminate. }
  destruct V1 as [A1 A2 A3 A4 A5 A6 A7 A8]. constructor; auto.
  - constructor; cbn [hx_buckets hx_values hx_bloom hx_ro hx_synced hx_dlen hx_file hx_osafe hx_odx hx_clean hx_dirty hx_fifo with_file hx_mod hx_cap]; auto; [|discriminate].
    intros b' y Hb Hc. apply A6; auto. unfold cand in *; cbn [hx_dirty hx_clean hx_file with_file] in Hc.
    destruct Hc as [H|[H [H'|H']]]; auto.
  - cbn [hx_file hx_odx hx_osafe with_file]. destruct V6 as [B1 B2 B3 B4 B5 B6].
    constructor; cbn [put_cell f_buckets f_values f_dlen f_bloom]; auto. discriminate.
Qed.

Lemma rot_bloom_inv sp s i v : inv false sp s ->
  inv false sp (with_file s (mk_hfile (f_buckets (hx_file s)) (f_values (hx_file s)) (f_dlen (hx_file s))
                                 (upd i (fun _ => v) (f_bloom (hx_file s))) (f_cells (hx_file s)))).
Proof.
  intros [V1 V2 V3 V4 V5 V6]. destruct V1 as [A1 A2 A3 A4 A5 A6 A7 A8]. constructor; auto.
  - constructor; cbn [hx_buckets hx_values hx_bloom hx_ro hx_synced hx_dlen hx_file hx_osafe hx_odx hx_clean hx_dirty hx_fifo with_file hx_mod hx_cap]; auto.
  - cbn [hx_file hx_odx hx_osafe with_file]. destruct V6 as [B1 B2 B3 B4 B5 B6].
    constructor; cbn [f_buckets f_values f_dlen f_bloom]; auto.
    destruct B5 as [B5 _]. split; [rewrite upd_len; auto|discriminate].
Qed.

(* ---------- one step, then runs ---------- *)
Definition save_ok (o : hop) (x : hout) : Prop :=
  match o with HSave _ _ => x = ZUnit \/ x = ZFail HReadOnly | _ => True end.

Lemma step_spec full sp s o x s' :
  inv full sp s -> (full = true -> no_rot o) -> (full = false -> save_ok o x) -> hstep c s o = (x, s') ->
  exists sp', hspec_step (negb full) sp o x sp' /\ inv full sp' s'.
Proof.
  intros HI Hn Hs.
  destruct o as [k p|k| |n| | |ro|e|b cr|q cr|i v]; cbn [hstep].
  - destruct (save c s k p) as [r s1] eqn:E. intros H; injection H as <- <-.
    destruct (save_inv _ _ _ _ _ _ _ HI E) as [(H1 & -> & ->)|[(H1 & -> & H2)|(H1 & Hf & [e ->])]].
    + exists sp. split; auto. constructor; auto.
    + eexists. split; [|exact H2]. constructor; auto.
    + specialize (Hs Hf). cbn in Hs. destruct Hs as [Hs|Hs]; [discriminate|].
      (* not a read-only handle, so the answer cannot be ReadOnly *)
      injection Hs as ->. exfalso. clear -E H1 HI. unfold save in E. rewrite (v_ro _ _ _ _ HI), H1 in E.
      cbv zeta in E. revert E. generalize (S (hx_values (with_synced s false))). intros fu.
      assert (Hex : forall fu s0 r0 s0', expand c fu s0 = (r0, s0') -> r0 <> RErr HReadOnly).
      { clear. induction fu as [|fu IH]; intros s0 r0 s0'; cbn [expand]; destruct (hc_thresh c (hx_cap s0) <=? hx_values s0);
          try (intros H; injection H as <- <-; discriminate).
        destruct (split_one c s0) as [r1 s1] eqn:Es. destruct r1.
        - apply IH.
        - intros H; injection H as <- <-. revert Es. unfold split_one.
          destruct (remove_bucket _ _) as [r2 s2]. destruct (match r2 with inl x => _ | inr _ => _ end) as [l w].
          destruct (split_loop _ _ _ _ _ _ _ _ _ _) as [[[o' x1] x2]|]; [|discriminate].
          destruct w; intros H; injection H as <- <-; discriminate.
        - intros H; injection H as <- <-; discriminate.
        - intros H; injection H as <- <-; discriminate. }
      destruct (expand c fu (with_synced s false)) as [r0 s0] eqn:Ee. apply Hex in Ee.
      destruct r0; [|intros H; injection H as -> ->; congruence|discriminate|discriminate].
      unfold save_to_bucket. destruct (remove_bucket _ _) as [[y|e] s2] eqn:Er.
      * destruct (save_buf _ _ _ _ _) as [[? ?] ?]. discriminate.
      * intros H; injection H as -> ->. revert Er. unfold remove_bucket. destruct (remove_cache _ _) as [[y|] s3]; [discriminate|].
        destruct (f_cell _ _); discriminate.
  - destruct HI as [V1 V2 V3 V4 V5 V6]. unfold load. destruct (bl_contains c (hx_bloom s) k) eqn:Eb.
    + destruct (fetch c s k) as [r s1] eqn:E.
      destruct (fetch_core _ _ _ _ _ _ V1 E) as (F1 & F2 & (cl & ff & dr & ->)).
      assert (HI' : inv full sp (with_caches s cl ff dr)) by (constructor; auto).
      destruct F2 as [->|[Hf [e ->]]].
      * destruct (find_key k (m_saves (p_cur sp))) as [p|] eqn:Ef; intros H; injection H as <- <-; exists sp; (split; [|auto]).
        -- constructor. apply latest_find. auto.
        -- constructor. apply latest_find. auto.
      * intros H; injection H as <- <-. exists sp. split; [|auto]. apply SLoadRot. subst full; auto.
    + intros H; injection H as <- <-. exists sp. split; [|constructor; auto].
      destruct full; [|apply SLoadRot; auto].
      apply SLoadNone. apply latest_find. unfold saves_of.
      destruct (find_key k (m_saves (p_cur sp))) eqn:Ef; auto.
      assert (In k (map fst (m_saves (p_cur sp)))) by (apply find_key_In; congruence).
      destruct V2 as [_ V2]. rewrite (V2 eq_refl k H) in Eb. discriminate.
  - intros H; injection H as <- <-. exists sp. split; auto.
    destruct (i_cnt _ _ _ _ (v_core _ _ _ _ HI)) as [H1 [d [H2 H3]]].
    econstructor; [exact H2|]. unfold saves_of. lia.
  - intros H; injection H as <- <-. exists (mk_hspec (mk_hmap (saves_of sp) n) (p_safe sp) (p_ro sp)). split; [constructor|].
    destruct HI as [V1 V2 V3 V4 V5 V6]. unfold set_dlen. destruct (hx_dlen s =? n) eqn:E.
    + apply Nat.eqb_eq in E. assert (p_cur sp = mk_hmap (saves_of sp) n) as <-.
      { unfold saves_of. destruct (p_cur sp) as [a b]; cbn in *. congruence. }
      constructor; auto.
    + constructor; cbn [p_cur p_safe p_ro m_saves m_dlen]; auto.
      * eapply core_fields; eauto.
      * cbn. discriminate.
  - intros H; injection H as <- <-. exists sp. split; auto. rewrite (v_dlen _ _ _ _ HI). constructor.
  - unfold sync. destruct (hx_ro s) eqn:Er; intros H; injection H as <- <-.
    + exists sp. split; auto. constructor. rewrite <- (v_ro _ _ _ _ HI). auto.
    + exists (mk_hspec (p_cur sp) (p_cur sp) false). split; [constructor; rewrite <- (v_ro _ _ _ _ HI); auto|].
      apply inv_synced; auto.
      replace false with (p_ro sp) at 1 by (rewrite <- (v_ro _ _ _ _ HI); auto).
      apply flush_inv. auto.
  - intros H; injection H as <- <-.
    unfold drop_hdx. destruct (hx_ro s) eqn:Er; cbn [negb andb].
    + exists (mk_hspec (p_safe sp) (p_safe sp) ro). split.
      * apply SReopenRo. rewrite <- (v_ro _ _ _ _ HI). auto.
      * apply open_inv; [apply (v_snap _ _ _ _ HI)|apply (i_odx _ _ _ _ (v_core _ _ _ _ HI))].
    + exists (mk_hspec (p_cur sp) (p_cur sp) ro). split.
      * apply SReopen. rewrite <- (v_ro _ _ _ _ HI). auto.
      * destruct (hx_synced s) eqn:Ey; cbn [negb].
        -- rewrite (v_syn _ _ _ _ HI Er Ey).
           apply open_inv; [apply (v_snap _ _ _ _ HI)|apply (i_odx _ _ _ _ (v_core _ _ _ _ HI))].
        -- pose proof (flush_inv _ _ _ HI) as HF.
           apply open_inv; [apply (v_snap _ _ _ _ HF)|apply (i_odx _ _ _ _ (v_core _ _ _ _ HF))].
  - intros H; injection H as <- <-. exists (mk_hspec (p_safe sp) (p_safe sp) false). split; [constructor|].
    unfold crash. pose proof (i_odx _ _ _ _ (v_core _ _ _ _ HI)) as HO.
    destruct (cut_ok (hx_odx s) (hx_osafe s) (Nat.max (hx_osafe s) (Nat.min e (o_end (hx_odx s)))) HO) as [C1 C2].
    { destruct HO; lia. }
    apply open_inv; auto. eapply snap_agree; [exact C2|apply le_n|apply (v_snap _ _ _ _ HI)].
  - intros H; injection H as <- <-. destruct full; [exfalso; apply (Hn eq_refl)|]. exists sp. split; [constructor; auto|].
    destruct (aget (f_cells (hx_file s)) b); [apply rot_cell_inv|]; auto.
  - intros H; injection H as <- <-. destruct full; [exfalso; apply (Hn eq_refl)|]. exists sp. split; [constructor; auto|].
    destruct (aget (o_recs (hx_odx s)) q) eqn:E; [eapply rot_odx_inv; eauto|]; auto.
  - intros H; injection H as <- <-. destruct full; [exfalso; apply (Hn eq_refl)|]. exists sp. split; [constructor; auto|].
    apply rot_bloom_inv; auto.
Qed.

Lemma run_spec full ops : forall sp s xs s',
  inv full sp s -> (full = true -> Forall no_rot ops) -> (full = false -> Forall2 save_ok ops xs) ->
  hrun c s ops = (xs, s') -> exists sp', hspec_run (negb full) sp ops xs sp' /\ inv full sp' s'.
Proof.
  induction ops as [|o ops IH]; intros sp s xs s' HI Hn Hs; cbn [hrun].
  - intros H; injection H as <- <-. exists sp. split; [constructor|auto].
  - destruct (hstep c s o) as [x s1] eqn:E1. destruct (hrun c s1 ops) as [xs1 s2] eqn:E2.
    intros H; injection H as <- <-.
    destruct (step_spec full sp s o x s1 HI) as [sp1 [Hst HI1]]; auto.
    { intros Hf. specialize (Hn Hf). inversion Hn; auto. }
    { intros Hf. specialize (Hs Hf). inversion Hs; auto. }
    destruct (IH sp1 s1 xs1 s2 HI1) as [sp2 [Hr HI2]]; auto.
    { intros Hf. specialize (Hn Hf). inversion Hn; auto. }
    { intros Hf. specialize (Hs Hf). inversion Hs; auto. }
    exists sp2. split; auto. econstructor; eauto.
Qed.

Lemma fresh_inv full n : inv full (mk_hspec (mk_hmap [] n) (mk_hmap [] n) false) (new_hdx c n).
Proof.
  unfold new_hdx. apply open_inv.
  - assert (Hc : forall b, b < hc_init c -> f_cell (fresh_file c n) b = CGood bucket0).
    { intros b Hb. unfold f_cell, fresh_file; cbn [f_cells].
      rewrite (In_aget _ b (CGood bucket0)); auto.
      - rewrite map_map. cbn [fst]. rewrite map_id. apply seq_NoDup.
      - apply in_map_iff. exists b. split; auto. apply in_seq. lia. }
    constructor; cbn [fresh_file f_buckets f_values f_dlen f_bloom m_saves m_dlen]; auto.
    + apply (ho_init c OK).
    + intros b x Hb Hx. change (f_cell (fresh_file c n) b = CGood x) in Hx. rewrite Hc in Hx by auto. injection Hx as <-.
      split; [cbn; unfold ODX_HEADER; lia|].
      change (fst (bucket_items fresh_odx bucket0)) with (@nil elem).
      split; [intros k H; exfalso; apply H; reflexivity|]. split; [intros k p H; discriminate|].
      intros _. split; [reflexivity|]. intros k p _ H. discriminate.
    + intros _ b Hb. exists bucket0. apply Hc. auto.
    + split; [simpl; lia|]. exists 0. split; [|lia]. exists []. split; [constructor|]. split; auto. simpl. tauto.
    + split; [apply repeat_length|]. intros _ k [].
  - split; [cbn; unfold ODX_HEADER; lia|]. intros p x H. discriminate.
Qed.

End Cfg.
