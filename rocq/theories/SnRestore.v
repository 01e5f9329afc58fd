(* The restorer: header window, durable steps, load-state. *)
From Verif Require Import Util EpochModel EpochSpec EpochProofs GasModel SnModel SnSpec SnMaps SnPack SnWrite SnImport.
Local Open Scope N_scope.

Definition sealed (E : senv) (e : shdr * N) : Prop := snd e = sv_hash E (fst e).
Lemma ins_num_In h l x : In x (ins_num h l) <-> x = h \/ In x l.
Proof.
  induction l as [|y l IH]; cbn [ins_num In]; [intuition|].
  destruct (sh_num (fst h) <? sh_num (fst y)); cbn [In]; [intuition|]. rewrite IH. intuition.
Qed.
Lemma window_sealed E hs : Forall (sealed E) (scaffold_window E hs).
Proof.
  unfold scaffold_window. apply Forall_forall. intros x Hx. apply filter_In in Hx as [Hx _]. revert x Hx.
  assert (H : forall l, (forall x, In x l -> sealed E x) -> forall x, In x (fold_left (fun l h => ins_num (h, sv_hash E h) l) hs l) -> sealed E x).
  { induction hs as [|h hs IH]; intros l Hl x; cbn [fold_left]; auto. apply IH. intros y Hy. apply ins_num_In in Hy as [->|Hy]; [reflexivity|auto]. }
  apply H. intros x [].
Qed.

(* ---------- a linked window ending at a block of the chain is the chain ---------- *)
Lemma contiguous_app n a b : contiguous n (a ++ b) = contiguous n a && contiguous (n + len a) b.
Proof.
  revert n. induction a as [|[h x] a IH]; intros n; cbn [app contiguous].
  - rewrite len_nil, N.add_0_r. auto.
  - rewrite IH, len_cons, <- andb_assoc. do 3 f_equal. lia.
Qed.
Lemma contiguous_nth w : forall n k e, contiguous n w = true -> nth_error w k = Some e -> sh_num (fst e) = n + N.of_nat k.
Proof.
  induction w as [|[h x] w IH]; intros n [|k] e Hc He; cbn [nth_error contiguous] in *; try discriminate.
  - injection He as <-. apply andb_prop in Hc as [Hc _]. apply N.eqb_eq in Hc. cbn [fst]. lia.
  - apply andb_prop in Hc as [_ Hc]. rewrite (IH _ _ _ Hc He). lia.
Qed.
Lemma window_true E c : senv_sound E -> chain_ok E c -> forall w n e, w = removelast w ++ [e] -> Forall (sealed E) w ->
  contiguous n w = true -> linked w = true -> ch_hdr c (sh_num (fst e)) = Some (fst e) ->
  Forall (fun x => ch_hdr c (sh_num (fst x)) = Some (fst x)) w.
Proof.
  intros Hs Hc. induction w as [|[h x] w IH]; intros n e Hw Hse Hcon Hl He; [constructor|].
  destruct w as [|[h2 x2] w].
  - cbn in Hw. injection Hw as <-. constructor; auto.
  - rewrite removelast_cons in Hw. cbn [app] in Hw. injection Hw as Hw. inversion Hse as [|? ? S1 S2]; subst.
    cbn [contiguous] in Hcon. apply andb_prop in Hcon as [C1 C2]. apply N.eqb_eq in C1.
    cbn [linked] in Hl. apply andb_prop in Hl as [L1 L2]. apply N.eqb_eq in L1.
    pose proof (IH (n + 1) e Hw S2 C2 L2 He) as Hall. constructor; auto. inversion Hall as [|? ? H2 _]; subst. cbn [fst] in *.
    cbn [contiguous] in C2. apply andb_prop in C2 as [C2 _]. apply N.eqb_eq in C2. rewrite C2 in H2.
    destruct (co_dense _ _ Hc _ _ H2) as (p & P1 & P2). unfold sealed in S1. cbn [fst snd] in S1.
    assert (p = h) by (apply (so_hash _ Hs); congruence). subst p. auto.
Qed.

Lemma nums_lookup w : forall m, bm_sorted m -> forall e, In e w ->
  (forall x, In x w -> snd x = snd e -> sh_num (fst x) = sh_num (fst e)) ->
  bm_lookup (snd e) (fold_left (fun m e => bm_insert (snd e) (sh_num (fst e)) m) w m) = Some (sh_num (fst e)).
Proof.
  assert (K : forall w m, bm_sorted m -> forall k v, bm_lookup k m = Some v -> (forall x, In x w -> snd x = k -> sh_num (fst x) = v) ->
     bm_lookup k (fold_left (fun m e => bm_insert (snd e) (sh_num (fst e)) m) w m) = Some v).
  { induction w0 as [|y w0 IH]; intros m Hs k v Hl Hall; cbn [fold_left]; auto. apply IH; [apply bm_insert_sorted; auto| |intros x Hx; apply Hall; right; auto].
    rewrite bm_lookup_insert by auto. destruct (N.eqb_spec k (snd y)) as [He|]; auto. f_equal. apply Hall; [left; auto|auto]. }
  induction w as [|y w IH]; intros m Hs e Hi Hall; [destruct Hi|]. cbn [fold_left]. destruct Hi as [->|Hi].
  - apply K; [apply bm_insert_sorted; auto|rewrite bm_lookup_insert, N.eqb_refl by auto; auto|intros x Hx; apply Hall; right; auto].
  - apply IH; [apply bm_insert_sorted; auto|auto|intros x Hx; apply Hall; right; auto].
Qed.
Lemma nums_sorted w : forall m, bm_sorted m -> bm_sorted (fold_left (fun (m : bmap N) (e : shdr * N) => bm_insert (snd e) (sh_num (fst e)) m) w m).
Proof. induction w as [|y w IH]; intros m Hs; cbn [fold_left]; auto. apply IH, bm_insert_sorted. auto. Qed.

Lemma heads_nth st b w : forall count n k, (k < count)%nat -> nth_error (scaffold_heads st b w n count) k = Some (header_at st b w (n + N.of_nat k)).
Proof.
  induction count as [|count IH]; intros n [|k] Hk; cbn [scaffold_heads nth_error]; try lia.
  - do 2 f_equal. lia.
  - rewrite IH by lia. do 2 f_equal. lia.
Qed.
Lemma heads_len st b w : forall count n, length (scaffold_heads st b w n count) = count.
Proof. induction count as [|count IH]; intros n; cbn [scaffold_heads length]; auto. Qed.

(* what a successful scaffold of a genesis-only directory leaves *)
Record scaffolded (E : senv) (g : sgen) (d : sdir) (w : list (shdr * N)) (num hash : N) (d3 : sdir) : Prop := {
  sc_num : 0 < num;
  sc_marker : dd_marker d3 = Some num;
  sc_cons : dd_cons d3 = dd_cons d;
  sc_last : exists hb, w = removelast w ++ [(hb, hash)] /\ sh_num hb = num;
  sc_first : exists h0 x0 r, w = (h0, x0) :: r /\ 1 <= sh_num h0 /\ sh_num h0 <= N.max (num - 255) 1 /\
     contiguous (sh_num h0) w = true /\ linked w = true;
  sc_tip : tip d3 = num;
  sc_gen : header_by_num d3 0 = Some (g_hdr g, sv_hash E (g_hdr g));
  sc_heads : forall e, In e w -> header_by_num d3 (sh_num (fst e)) = Some e;
  sc_db : exists db db3, dd_db d = Some db /\ dd_db d3 = Some db3 /\ b_tabs db3 = mk_tabs [] [] (tb_codes (b_tabs db)) /\
     b_fin db3 = b_fin db /\ b_safe db3 = b_safe db /\
     b_nums db3 = fold_left (fun m e => bm_insert (snd e) (sh_num (fst e)) m) w (bm_insert hash num (b_nums db)) }.
Lemma last_split {A} (w : list A) x r : rev w = x :: r -> w = removelast w ++ [x].
Proof.
  intros H. assert (Hw : w = rev r ++ [x]) by (rewrite <- (rev_involutive w), H; auto). rewrite Hw at 2. rewrite removelast_last. auto.
Qed.
Lemma scaffold_spec E g d w num hash tr d3 : dd_sf d = Some [(g_hdr g, sv_hash E (g_hdr g))] ->
  import_chain_scaffold E d w num hash = (tr, inl d3) ->
  scaffolded E g d w num hash d3 /\ exists d1 d2, tr = [d1; d2; d3] /\ dd_marker d1 = Some num /\ dd_marker d2 = Some num /\
    dd_db d1 = dd_db d /\ dd_db d2 = dd_db d /\ dd_sf d1 = dd_sf d /\ dd_cons d1 = dd_cons d /\ dd_cons d2 = dd_cons d /\ is_some (dd_sf d2) = true.
Proof.
  intros Hsf. unfold import_chain_scaffold. destruct w as [|[h0 x0] w']; [discriminate|].
  destruct (rev ((h0, x0) :: w')) as [|[hb hbh] rr] eqn:Er; [discriminate|]. pose proof (last_split _ _ _ Er) as Hlast.
  destruct (N.eqb_spec num 0) as [|H0]; [discriminate|].
  destruct (N.eqb_spec (sh_num hb) num) as [H1|]; [|discriminate]. destruct (N.eqb_spec hbh hash) as [H2|]; [|discriminate]. cbn [negb orb].
  destruct (N.eqb_spec (sh_num h0) 0) as [|H3]; [discriminate|].
  destruct (N.leb_spec (sh_num h0) (N.max (num - (BLOCKHASH_ANCESTORS - 1)) 1)) as [H4|]; [|discriminate]. cbn [negb].
  destruct (contiguous (sh_num h0) ((h0, x0) :: w')) eqn:H5; [|discriminate]. destruct (linked ((h0, x0) :: w')) eqn:H6; [|discriminate]. cbn [negb].
  destruct (dd_db d) as [db|] eqn:Hdb; [|discriminate]. rewrite Hsf. cbn [dd_marker dd_db dd_sf dd_cons].
  set (w := (h0, x0) :: w') in *. intros H. injection H as <- <-. subst hbh. unfold BLOCKHASH_ANCESTORS in H4.
  assert (Hl2 : length w = S (length (removelast w))).
  { pose proof (f_equal (@length _) Hlast) as Hl2. rewrite app_length in Hl2. cbn [length] in Hl2. lia. }
  assert (Hw0 : w = (h0, x0) :: w') by auto. clearbody w.
  (* the window covers h0..num *)
  assert (Hlen : N.of_nat (length w) = num - sh_num h0 + 1 /\ sh_num h0 <= num).
  { rewrite Hlast, contiguous_app in H5. apply andb_prop in H5 as [_ H5]. cbn [contiguous] in H5. rewrite andb_true_r in H5. apply N.eqb_eq in H5.
    unfold len in H5. lia. }
  destruct Hlen as [Hlen Hle].
  assert (Hheads : forall n, sh_num h0 <= n <= num ->
     nth_error ([(g_hdr g, sv_hash E (g_hdr g))] ++ scaffold_heads (sh_num h0) num w 1 (N.to_nat (num - 1)) ++ [(hb, hash)]) (N.to_nat n) =
     nth_error w (N.to_nat (n - sh_num h0))).
  { intros n Hn. rewrite nth_error_app2 by (cbn [length]; lia). cbn [length].
    destruct (N.eq_dec n num) as [->|Hne].
    - rewrite nth_error_app2 by (rewrite heads_len; lia). rewrite heads_len. replace (_ - _ - _)%nat with O by lia. cbn [nth_error].
      rewrite Hlast, nth_error_app2.
      + replace (N.to_nat (num - sh_num h0) - length (removelast w))%nat with O by lia. auto.
      + lia.
    - rewrite nth_error_app1 by (rewrite heads_len; lia). rewrite heads_nth by lia.
      replace (1 + N.of_nat (N.to_nat n - 1)) with n by lia. unfold header_at.
      destruct (N.leb_spec (sh_num h0) n); [|lia]. destruct (N.leb_spec n num); [|lia]. cbn [andb].
      symmetry. apply nth_error_nth'. lia. }
  split.
  - constructor; cbn [dd_marker dd_cons dd_db dd_sf]; auto.
    + lia.
    + exists hb. auto.
    + exists h0, x0, w'. split; [auto|]. split; [lia|]. split; [lia|]. auto.
    + unfold tip. cbn [dd_sf]. unfold len. cbn [app length]. rewrite ?app_length, ?heads_len. cbn [length]. lia.
    + intros e He. unfold header_by_num. cbn [dd_sf]. apply In_nth_error in He as (k & Hk). pose proof (contiguous_nth _ _ _ _ H5 Hk) as Hn.
      assert (k < length w)%nat by (apply nth_error_Some; congruence).
      rewrite Hheads by lia. rewrite <- Hk. f_equal. lia.
    + eexists db, _. repeat split; eauto. rewrite Hw0. reflexivity.
  - eexists _, _. split; [reflexivity|]. cbn [dd_marker dd_db dd_sf dd_cons is_some]. auto 10.
Qed.

(* ---------- the first steps ---------- *)
Lemma open_start E g d t1 d0 : bm_sorted (tb_codes (g_tabs g)) -> startable E g d -> restorer_open E g d = (t1, inl d0) ->
  (t1 = [] /\ d0 = d \/ t1 = [d0] /\ fresh d) /\ dd_marker d0 = dd_marker d /\ dd_cons d0 = dd_cons d /\
  dd_sf d0 = Some [(g_hdr g, sv_hash E (g_hdr g))] /\
  exists db, dd_db d0 = Some db /\ bm_sorted (b_nums db) /\ bm_sorted (tb_codes (b_tabs db)) /\ (fresh d -> b_tabs db = g_tabs g).
Proof.
  intros Hg Hst. unfold restorer_open, env_new. destruct Hst as [[H1 H2]|(db & H1 & H2 & H3 & H4)]; rewrite H1, H2.
  - set (d' := mk_sdir _ _ _ _). destruct (0 <? tip d') eqn:Et; [discriminate|]. intros H. injection H as <- <-.
    split; [right; split; [auto|split; auto]|]. repeat split; auto. eexists. split; [reflexivity|]. cbn [b_nums b_tabs]. repeat split; auto.
    apply bm_insert_sorted. constructor.
  - rewrite N.eqb_refl. destruct (0 <? tip d) eqn:Et; [discriminate|]. intros H. injection H as <- <-.
    split; [left; auto|]. repeat split; auto. exists db. repeat split; auto. intros [F1 _]. congruence.
Qed.

Section Sound.
Variables (E : senv) (c : schain) (g : sgen).
Hypothesis Hs : senv_sound E.
Hypothesis Hc : chain_ok E c.
Hypothesis Hg : bm_sorted (tb_codes (g_tabs g)).

Lemma import_state_inv d rd db cs t3 d3 root : dd_db d = Some db -> b_tabs db = mk_tabs [] [] cs -> bm_sorted cs ->
  import_state E d rd = (t3, inl (d3, root)) ->
  exists t hb x, tabs_ok E t /\ d3 = mk_sdir (dd_marker d) (Some (mk_sdb t (b_nums db) (b_fin db) (b_safe db))) (dd_sf d) (dd_cons d) /\
    t3 = [d3] /\ root = sv_root E (tb_hashed t) /\ root = me_root (rd_meta rd) /\ header_by_num d (me_num (rd_meta rd)) = Some (hb, x) /\ sh_root hb = root.
Proof.
  intros Hdb Ht Hcs. unfold import_state. rewrite Hdb, Ht.
  destruct (import_loop E _ rd None None _) as [t|e] eqn:El; [|discriminate].
  destruct (N.eqb_spec (sv_root E (tb_hashed t)) (me_root (rd_meta rd))) as [H1|]; [|discriminate]. cbn [negb].
  destruct (header_by_num d (me_num (rd_meta rd))) as [[hb x]|] eqn:Eh; [|discriminate].
  destruct (N.eqb_spec (sh_root hb) (sv_root E (tb_hashed t))) as [H2|]; [|discriminate]. cbn [negb].
  intros H. injection H as <- <- <-. exists t, hb, x. repeat split; auto.
  all: eapply import_tabs in El; [apply El| | |apply tabs_empty; auto]; apply Hs.
Qed.
Lemma state_by_root t b h : tabs_ok E t -> ch_hdr c b = Some h -> sh_root h = sv_root E (tb_hashed t) -> tb_plain t = norm E (ch_state c b).
Proof.
  intros [T1 T2 T3 T4 T5] Hh Hr. rewrite (co_root _ _ Hc _ _ Hh), T2 in Hr. pose proof (co_wf _ _ Hc b) as Hw. pose proof (so_key _ Hs) as Hk.
  apply (so_root _ Hs) in Hr; [|apply hashed_wf; auto|apply hashed_wf; auto]. rewrite !norm_hashed in Hr by auto.
  apply hashed_inj in Hr; auto using norm_wf. congruence.
Qed.
Lemma fin_dir d3 db num hash t4 r : dd_db d3 = Some db -> finish d3 num hash = (t4, r) ->
  exists d4, t4 = [d4] /\ d4 = mk_sdir (dd_marker d3) (Some (mk_sdb (b_tabs db) (b_nums db) (Some num) (Some num))) (dd_sf d3) (dd_cons d3) /\
    (forall d', r = inl d' -> d' = d4).
Proof.
  intros Hdb. unfold finish. rewrite Hdb. set (d4 := mk_sdir _ _ _ _).
  destruct (negb (tip d4 =? num)); [intros H; injection H as <- <-; exists d4; split; [auto|]; split; [auto|]; discriminate|].
  destruct (header_by_num d4 num) as [[? h]|]; [|intros H; injection H as <- <-; exists d4; split; [auto|]; split; [auto|]; discriminate].
  destruct (h =? hash); intros H; injection H as <- <-; exists d4; (split; [auto|]; split; [auto|]); [intros d' Hd; congruence|discriminate].
Qed.

Lemma scaffold_fail d w num hash tr e : import_chain_scaffold E d w num hash = (tr, inr e) -> tr = [].
Proof.
  unfold import_chain_scaffold. intros H. destruct w as [|[h0 x0] w']; [congruence|]. destruct (rev _) as [|[hb hbh] rr]; [congruence|].
  repeat match type of H with (if ?b then _ else _) = _ => destruct b; [congruence|] end.
  destruct (dd_db d); [|congruence]. destruct (dd_sf d); congruence.
Qed.
Lemma import_fail d rd tr e : import_state E d rd = (tr, inr e) -> tr = [].
Proof.
  unfold import_state. destruct (dd_db d) as [db|]; [|congruence]. destruct (import_loop E _ _ _ _ _) as [t|?]; [|congruence].
  destruct (negb _); [congruence|]. destruct (header_by_num _ _) as [[hb x]|]; [|congruence]. destruct (negb _); congruence.
Qed.

(* everything about one run of restore_pack on a pack that names a block of the chain *)
Lemma restore_run d s b h tr r : startable E g d -> names_block E c s b h -> restore_pack E g d s = (tr, r) ->
  Forall (fun d' => dd_cons d' = dd_cons d) tr /\ (fresh d -> Forall (durable_ok E c g b) tr) /\
  (forall d' root, r = inl (d', root) ->
     restored E c g b d' /\ root = sh_root h /\ check_ready E (norm E (ch_state c b)) b = inl tt /\ 0 < b /\
     last tr d = d').
Proof.
  intros Hst (rd & Ho & Hn & Hh & Hb). unfold restore_pack. rewrite Ho, Hn, Hh.
  destruct (restorer_open E g d) as [t1 [d0|e]] eqn:Eo.
  2:{ intros H. injection H as <- <-.
      assert (t1 = []). { unfold restorer_open, env_new in Eo. destruct Hst as [[F1 F2]|(db & F1 & F2 & _)].
        - rewrite F1, F2 in Eo. cbn in Eo. discriminate.
        - rewrite F1, F2, N.eqb_refl in Eo. unfold tip in Eo. rewrite F2 in Eo. discriminate. }
      subst t1. split; [constructor|]. split; [intros; constructor|]. intros; discriminate. }
  destruct (open_start _ _ _ _ _ Hg Hst Eo) as (S1 & S2 & S3 & S4 & db & S5 & S6 & S7 & S8).
  assert (Z1 : Forall (fun d' => dd_cons d' = dd_cons d) t1) by (destruct S1 as [[-> _]|[-> _]]; auto).
  assert (Z2 : fresh d -> Forall (durable_ok E c g b) t1).
  { intros Hf. destruct S1 as [[-> _]|[-> _]]; auto. constructor; auto. split.
    - unfold tip. rewrite S4. cbn. lia.
    - intros db' Hdb. rewrite S5 in Hdb. injection Hdb as <-. auto. }
  destruct (import_chain_scaffold E d0 _ b (sv_hash E h)) as [t2 [d2|e]] eqn:Ec.
  2:{ intros H. injection H as <- <-. apply scaffold_fail in Ec. subst t2. rewrite app_nil_r. split; [auto|]. split; [auto|]. intros; discriminate. }
  destruct (scaffold_spec _ _ _ _ _ _ _ _ S4 Ec) as [Sc (x1 & x2 & -> & X1 & X2 & X3 & X4 & X5 & X6 & X7 & X8)].
  destruct (sc_db _ _ _ _ _ _ _ Sc) as (db0 & db3 & D0 & D1 & D2 & D3 & D4 & D5). rewrite S5 in D0. injection D0 as <-.
  assert (Z3 : Forall (fun d' => dd_cons d' = dd_cons d) (t1 ++ [x1; x2; d2])).
  { apply Forall_app. split; auto. pose proof (sc_cons _ _ _ _ _ _ _ Sc). repeat constructor; congruence. }
  assert (Z4 : fresh d -> Forall (durable_ok E c g b) (t1 ++ [x1; x2; d2])).
  { intros Hf. apply Forall_app. split; auto. constructor; [|constructor; [|constructor; [|constructor]]].
    - split; [auto|]. rewrite X3, S5. intros db' Hd. injection Hd as <-. auto.
    - split; [auto|]. rewrite X4, S5. intros db' Hd. injection Hd as <-. auto.
    - split; [intros _; apply (sc_marker _ _ _ _ _ _ _ Sc)|]. rewrite D1. intros db' Hd. injection Hd as <-. rewrite D2. cbn. auto. }
  destruct (import_state E d2 rd) as [t3 [[d3 root]|e]] eqn:Ei.
  2:{ intros H. injection H as <- <-. apply import_fail in Ei. subst t3. cbn [app] in *. split; [auto|]. split; [auto|]. intros; discriminate. }
  destruct (import_state_inv _ _ _ _ _ _ _ D1 D2 S7 Ei) as (t & hb & x & I1 & I2 & -> & I4 & I5 & I6 & I7). rewrite Hn in I6.
  (* the header at b is the chain's *)
  destruct (sc_last _ _ _ _ _ _ _ Sc) as (hl & L1 & L2).
  destruct (sc_first _ _ _ _ _ _ _ Sc) as (h0 & y0 & wr & F1 & F2 & F3 & F4 & F5).
  set (w := scaffold_window E (rd_headers rd)) in *. pose proof (window_sealed E (rd_headers rd)) as Hw. fold w in Hw.
  assert (Hlin : In (hl, sv_hash E h) w) by (rewrite L1; apply in_or_app; right; left; auto).
  assert (Hhl : hl = h).
  { rewrite Forall_forall in Hw. apply Hw in Hlin. unfold sealed in Hlin. cbn [fst snd] in Hlin. apply (so_hash _ Hs). congruence. }
  subst hl. pose proof (window_true E c Hs Hc w _ _ L1 Hw F4 F5) as Hall. cbn [fst] in Hall. rewrite L2 in Hall. specialize (Hall Hb).
  pose proof (sc_heads _ _ _ _ _ _ _ Sc _ Hlin) as Hhb. cbn [fst] in Hhb. rewrite L2, I6 in Hhb. injection Hhb as -> ->.
  assert (Hplain : tb_plain t = norm E (ch_state c b)) by (eapply state_by_root; eauto; congruence).
  assert (Hhash : tb_hashed t = hashed E (norm E (ch_state c b))) by (rewrite (to_hashed _ _ I1), Hplain; auto).
  assert (M3 : dd_marker d3 = Some b) by (rewrite I2; apply (sc_marker _ _ _ _ _ _ _ Sc)).
  assert (C3 : dd_cons d3 = dd_cons d) by (rewrite I2; cbn [dd_cons]; rewrite (sc_cons _ _ _ _ _ _ _ Sc); auto).
  assert (Z5 : Forall (fun d' => dd_cons d' = dd_cons d) (t1 ++ [x1; x2; d2] ++ [d3])).
  { rewrite app_assoc. apply Forall_app. split; auto. }
  assert (Z6 : fresh d -> Forall (durable_ok E c g b) (t1 ++ [x1; x2; d2] ++ [d3])).
  { intros Hf. rewrite app_assoc. apply Forall_app. split; auto. constructor; auto. split; auto.
    rewrite I2. cbn [dd_db]. intros db' Hd. injection Hd as <-. cbn [b_tabs]. auto. }
  destruct (entry_readiness E d3 b (sv_hash E h)) as [[]|e] eqn:Er.
  2:{ intros H. injection H as <- <-. split; [auto|]. split; [auto|]. intros; discriminate. }
  destruct (finish d3 b (sv_hash E h)) as [t4 r4] eqn:Ef.
  assert (D3' : dd_db d3 = Some (mk_sdb t (b_nums db3) (b_fin db3) (b_safe db3))) by (rewrite I2; auto).
  destruct (fin_dir _ _ _ _ _ _ D3' Ef) as (d4 & -> & G1 & G2).
  assert (Z7 : Forall (fun d' => dd_cons d' = dd_cons d) (t1 ++ [x1; x2; d2] ++ [d3] ++ [d4])).
  { rewrite !app_assoc. apply Forall_app. rewrite <- app_assoc. split; auto. constructor; auto. rewrite G1. auto. }
  assert (Z8 : fresh d -> Forall (durable_ok E c g b) (t1 ++ [x1; x2; d2] ++ [d3] ++ [d4])).
  { intros Hf. rewrite !app_assoc. apply Forall_app. rewrite <- app_assoc. split; auto. constructor; auto. split.
    - rewrite G1. cbn [dd_marker]. auto.
    - rewrite G1. cbn [dd_db]. intros db' Hd. injection Hd as <-. cbn [b_tabs]. auto. }
  destruct r4 as [d'|e]; intros H; injection H as <- <-; (split; [auto|]; split; [auto|]); [|intros; discriminate].
  intros d'' root' Heq. injection Heq as <- <-. pose proof (G2 _ eq_refl) as ->.
  assert (Hsf : dd_sf d4 = dd_sf d2) by (rewrite G1, I2; auto).
  assert (Hby : forall n, header_by_num d4 n = header_by_num d2 n) by (intros n; unfold header_by_num; rewrite Hsf; auto).
  assert (Hin : forall n hh, n <> 0 -> b < n + 256 -> n <= b -> ch_hdr c n = Some hh -> In (hh, sv_hash E hh) w).
  { intros n hh N1 N2 N3 N4. assert (Hex : exists e, nth_error w (N.to_nat (n - sh_num h0)) = Some e).
    { destruct (nth_error w (N.to_nat (n - sh_num h0))) as [e|] eqn:En; [eauto|]. exfalso. apply nth_error_None in En.
      apply In_nth_error in Hlin as (k & Hk). pose proof (contiguous_nth _ _ _ _ F4 Hk) as Hkn. cbn [fst] in Hkn.
      assert (k < length w)%nat by (apply nth_error_Some; congruence). lia. }
    destruct Hex as [[h' x'] He]. pose proof (contiguous_nth _ _ _ _ F4 He) as Hnum. cbn [fst] in Hnum. apply nth_error_In in He.
    rewrite Forall_forall in Hall, Hw. pose proof (Hall _ He) as Hce. pose proof (Hw _ He) as Hse. unfold sealed in Hse. cbn [fst snd] in *.
    assert (Hnn : sh_num h' = n) by lia. rewrite Hnn, N4 in Hce. injection Hce as ->. rewrite <- Hse. auto. }
  assert (Hready : check_ready E (norm E (ch_state c b)) b = inl tt).
  { unfold entry_readiness in Er. rewrite D3' in Er. cbn [b_nums b_tabs] in Er. destruct (bm_lookup (sv_hash E h) (b_nums db3)) as [n|]; [|discriminate].
    destruct (header_by_num d3 n) as [[h' ?]|]; [|discriminate]. destruct (negb _); [discriminate|]. rewrite <- Hplain. auto. }
  split; [|split; [congruence|split; [auto|split; [apply (sc_num _ _ _ _ _ _ _ Sc)|]]]].
  - constructor.
    + unfold tip. rewrite Hsf. apply (sc_tip _ _ _ _ _ _ _ Sc).
    + rewrite G1. auto.
    + eexists. rewrite G1. split; [reflexivity|]. cbn [b_tabs b_nums b_fin b_safe]. repeat split; auto.
      * rewrite <- Hplain. apply I1.
      * intros n hh N1 N2 N3 N4. rewrite D5. pose proof (Hin n hh N1 N2 N3 N4) as Hi.
        pose proof (nums_lookup w (bm_insert (sv_hash E h) b (b_nums db)) (bm_insert_sorted _ _ _ S6) _ Hi) as Hnl. cbn [fst snd] in Hnl.
        rewrite (co_num _ _ Hc _ _ N4) in Hnl. apply Hnl. intros x Hx Hxe. rewrite Forall_forall in Hw, Hall.
        pose proof (Hw _ Hx) as Hsx. unfold sealed in Hsx. rewrite Hsx in Hxe. apply (so_hash _ Hs) in Hxe. rewrite Hxe. apply (co_num _ _ Hc _ _ N4).
    + rewrite Hby. apply (sc_gen _ _ _ _ _ _ _ Sc).
    + intros n hh N1 N2 N3 N4. rewrite Hby. pose proof (sc_heads _ _ _ _ _ _ _ Sc _ (Hin n hh N1 N2 N3 N4)) as Hx. cbn [fst] in Hx.
      rewrite (co_num _ _ Hc _ _ N4) in Hx. auto.
  - change (last (t1 ++ [x1; x2; d2; d3] ++ [d4]) d = d4). rewrite app_assoc. apply last_last.
Qed.
End Sound.

Lemma refuse_tip E g d t r : 0 < tip d -> restorer_open E g d = (t, r) -> t = [] /\ exists e, r = inr e.
Proof.
  intros Ht. unfold restorer_open, env_new. unfold tip in Ht. destruct (dd_sf d) as [l|] eqn:Es; [|cbn in Ht; lia].
  destruct (dd_db d) as [db|].
  - destruct l as [|[x y] l]; [intros H; injection H as <- <-; eauto|]. destruct (y =? _).
    + assert (Hp : (0 <? tip d) = true) by (unfold tip; rewrite Es; apply N.ltb_lt; auto). rewrite Hp. intros H. injection H as <- <-. eauto.
    + intros H. injection H as <- <-. eauto.
  - intros H. injection H as <- <-. eauto.
Qed.
