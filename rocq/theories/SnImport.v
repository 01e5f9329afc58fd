(* The import loop: what it accepts and what the tables hold afterwards. *)
From Verif Require Import Util EpochModel GasModel SnModel SnSpec SnMaps SnPack SnWrite.
Local Open Scope N_scope.

Lemma entry_storage m hs c s : len c <= 65536 -> next_entry (rdr m hs (Some (SStorage c) :: s) None) = (Some (inl (EStorage c)), rdr m hs s None).
Proof. intros H. unfold next_entry, rdr, pull. cbn [rd_done rd_pending rd_rest]. rewrite vet_storage by auto. auto. Qed.
Lemma entry_account m hs a s : next_entry (rdr m hs (Some (SAccount a) :: s) None) = (Some (inl (EAccount a)), rdr m hs s None).
Proof. auto. Qed.
Section Import.
Variable E : senv.
Hypothesis Hk : forall a b, sv_key E a = sv_key E b -> a = b.
Hypothesis Hcode : forall a b, sv_code E a = sv_code E b -> a = b.

(* ---------- invariant of the tables ---------- *)
Record tabs_ok (t : stabs) : Prop := {
  to_wf : wf_state (tb_plain t);
  to_hashed : tb_hashed t = hashed E (tb_plain t);
  to_norm : norm E (tb_plain t) = tb_plain t;
  to_csort : bm_sorted (tb_codes t);
  to_codes : codes_for E (tb_codes t) (tb_plain t) }.
Lemma norm_fix st : norm E st = st <-> forall a acc ss, In (a, (acc, ss)) st -> norm_acc E acc = acc.
Proof.
  unfold norm, vmap. induction st as [|[a [acc ss]] st IH]; cbn [map fst snd].
  - split; auto. intros _ a acc ss [].
  - split.
    + intros H. injection H as H1 H2. intros a' acc' ss' [He|Hi]; [injection He as <- <- <-; auto|]. exact (proj1 IH H2 a' acc' ss' Hi).
    + intros H. f_equal; [rewrite (H a acc ss) by (left; auto); auto|]. apply IH. intros a' acc' ss' Hi. apply (H a' acc' ss'). right. auto.
Qed.
Lemma norm_insert st a acc ss : norm E st = st -> norm_acc E acc = acc -> norm E (bm_insert a (acc, ss) st) = bm_insert a (acc, ss) st.
Proof.
  intros H1 H2. apply norm_fix. intros a' acc' ss' Hi. apply bm_insert_In in Hi as [He|Hi]; [injection He as <- <- <-; auto|].
  apply norm_fix with (1 := H1) in Hi. auto.
Qed.
Lemma norm_lookup st a acc ss : wf_state st -> norm E st = st -> bm_lookup a st = Some (acc, ss) -> norm_acc E acc = acc.
Proof. intros [Hs _] Hn Hl. apply bm_lookup_In in Hl; auto. eapply norm_fix; eauto. Qed.
Lemma tabs_header t a t' : tabs_ok t -> write_account_header E t a = inl t' -> tabs_ok t'.
Proof.
  intros [H1 H2 H3 H4 H5]. unfold write_account_header.
  set (cd := ar_code a).
  assert (G : forall acc cs', norm_acc E acc = acc -> bm_sorted cs' ->
     (forall h c, bm_lookup h (tb_codes t) = Some c -> sv_code E c = h -> bm_lookup h cs' = Some c) ->
     (forall h, ac_code acc = Some h -> exists c, bm_lookup h cs' = Some c /\ sv_code E c = h) ->
     tabs_ok (mk_tabs (put_acc (ar_addr a) acc (tb_plain t)) (put_acc (sv_key E (ar_addr a)) acc (tb_hashed t)) cs')).
  { intros acc cs' Ha Hs Hi Hc. constructor; cbn [tb_plain tb_hashed tb_codes]; auto.
    - apply put_acc_wf. auto.
    - rewrite H2, hashed_put_acc by auto. auto.
    - unfold put_acc. destruct (bm_lookup (ar_addr a) (tb_plain t)) as [[acc' ss]|]; apply norm_insert; auto.
    - intros x acc' ss' h Hl Hac Hn. unfold put_acc in Hl. rewrite bm_lookup_insert in Hl by apply H1.
      destruct (N.eqb_spec x (ar_addr a)) as [|Hne].
      + injection Hl as <- <-. auto.
      + destruct (H5 x acc' ss' h Hl Hac Hn) as (c & L1 & L2). eauto. }
  destruct cd as [[|x c]|].
  - intros H. injection H as <-. apply G; auto. cbn. discriminate.
  - destruct (sv_codeok E (x :: c)); [|discriminate]. intros H. injection H as <-. apply G.
    + unfold norm_acc. cbn [ac_nonce ac_bal ac_code]. destruct (N.eqb_spec (sv_code E (x :: c)) (sv_code E [])) as [He|]; auto.
      apply Hcode in He. discriminate.
    + apply bm_insert_sorted. auto.
    + intros h c' L1 L2. rewrite bm_lookup_insert by auto. destruct (N.eqb_spec h (sv_code E (x :: c))) as [He|]; auto.
      f_equal. apply Hcode. congruence.
    + cbn [ac_code]. intros h Hh. injection Hh as <-. exists (x :: c). rewrite bm_lookup_insert, N.eqb_refl by auto. auto.
  - intros H. injection H as <-. apply G; auto. cbn. discriminate.
Qed.
Lemma tabs_chunk t a l : tabs_ok t -> tabs_ok (write_storage_chunk E t a l).
Proof.
  intros [H1 H2 H3 H4 H5]. unfold write_storage_chunk. constructor; cbn [tb_plain tb_hashed tb_codes]; auto.
  - apply put_slots_wf. auto.
  - rewrite H2, hashed_put_slots by auto. auto.
  - unfold put_slots. destruct (bm_lookup a (tb_plain t)) as [[acc ss]|] eqn:El; auto. apply norm_insert; auto.
    eapply norm_lookup; eauto.
  - intros x acc' ss' h Hl. unfold put_slots in Hl. destruct (bm_lookup a (tb_plain t)) as [[acc ss]|] eqn:El; [|eapply H5; eauto].
    rewrite bm_lookup_insert in Hl by apply H1. destruct (N.eqb_spec x a) as [|Hne]; [|eapply H5; eauto].
    injection Hl as <- <-. eapply H5; eauto.
Qed.
Lemma import_tabs fuel : forall rd cur prev t t', import_loop E fuel rd cur prev t = inl t' -> tabs_ok t -> tabs_ok t'.
Proof.
  induction fuel as [|fuel IH]; intros rd cur prev t t'; cbn [import_loop]; [intros H; injection H as <-; auto|].
  destruct (next_entry rd) as [[[[a|l]|e]|] rd']; try discriminate.
  - destruct (match prev with Some p => ar_addr a <=? p | None => false end); [discriminate|].
    destruct (write_account_header E t a) as [t1|e] eqn:Ew; [|discriminate]. intros H Ht. eapply IH; eauto. eapply tabs_header; eauto.
  - destruct cur as [a|]; [|discriminate]. intros H Ht. eapply IH; eauto. apply tabs_chunk. auto.
  - intros H. injection H as <-. auto.
Qed.
Lemma tabs_empty cs : bm_sorted cs -> tabs_ok (mk_tabs [] [] cs).
Proof. intros H. constructor; cbn; auto; [split; constructor|]. intros a acc ss h Hl. discriminate. Qed.

(* ---------- what the loop accepts ---------- *)
Lemma import_shape fuel : forall s m hs cur prev t t', (length s < fuel)%nat ->
  import_loop E fuel (rdr m hs s None) cur prev t = inl t' ->
  exists cs gs f rest, (cur = None -> cs = []) /\ Forall (fun c => len c <= 65536) cs /\ bounded gs /\
    StronglySorted N.lt (map (fun g => ar_addr (fst g)) gs) /\
    (forall p, prev = Some p -> Forall (fun g => p < ar_addr (fst g)) gs) /\
    s = map Some (tail_recs cs gs) ++ Some (SEnd f) :: rest.
Proof.
  clear Hk Hcode.
  induction fuel as [|fuel IH]; intros s m hs cur prev t t' Hf; [lia|].
  cbn [import_loop]. unfold next_entry, rdr, pull. cbn [rd_done rd_pending rd_rest]. destruct s as [|i s]; [discriminate|].
  cbn [length] in Hf. destruct (vet i) as [r|e] eqn:Ev; [|discriminate]. apply vet_inl in Ev as [-> Hb].
  unfold set_rest. cbn [rd_meta rd_headers rd_done rd_rest rd_pending].
  destruct r as [x|x|a|c|f]; try discriminate.
  - destruct (match prev with Some p => ar_addr a <=? p | None => false end) eqn:Ep; [discriminate|].
    destruct (write_account_header E t a) as [t1|e] eqn:Ew; [|discriminate]. intros H.
    change (mk_sr m hs s None false) with (rdr m hs s None) in H. apply IH in H; [|lia].
    destruct H as (cs & gs & f & rest & _ & A1 & A2 & A3 & A4 & ->). exists [], ((a, cs) :: gs), f, rest.
    split; [auto|]. split; [constructor|]. split; [constructor; auto|]. specialize (A4 _ eq_refl). split; [|split].
    + cbn [map fst]. constructor; auto. apply Forall_forall. intros y Hy. apply in_map_iff in Hy as (g & <- & Hg).
      rewrite Forall_forall in A4. auto.
    + intros p Hp. subst prev. apply N.leb_gt in Ep. constructor; [auto|]. eapply Forall_impl; [|exact A4]. cbn. intros g Hg. lia.
    + auto.
  - destruct cur as [a|]; [|discriminate]. intros H. change (mk_sr m hs s None false) with (rdr m hs s None) in H. apply IH in H; [|lia].
    destruct H as (cs & gs & f & rest & _ & A1 & A2 & A3 & A4 & ->). exists (c :: cs), gs, f, rest.
    split; [discriminate|]. split; [constructor; auto|]. auto.
  - intros _. exists [], [], f, s. repeat split; auto; [constructor|constructor].
Qed.

(* ---------- an exported state is accepted, and is what the tables hold ---------- *)
Lemma norm_app a b : norm E (a ++ b) = norm E a ++ norm E b.
Proof. unfold norm, vmap. apply map_app. Qed.
Lemma norm_keys st : bm_keys (norm E st) = bm_keys st.
Proof. unfold norm. apply vmap_keys. Qed.
Definition code_good (cs : codes) (acc : sacc) : Prop :=
  forall h, ac_code acc = Some h -> h <> sv_code E [] -> exists c, bm_lookup h cs = Some c /\ sv_code E c = h /\ sv_codeok E c = true.
Lemma header_described cs t addr acc ss g : tabs_ok t -> code_good cs acc -> says (described E cs (addr, (acc, ss))) g ->
  (forall x, In x (bm_keys (tb_plain t)) -> x < addr) ->
  exists t', write_account_header E t (fst g) = inl t' /\ tb_plain t' = tb_plain t ++ [(addr, (norm_acc E acc, []))].
Proof.
  intros Ht Hc [Hg _] Hn. unfold write_account_header. rewrite Hg. cbn [ar_addr ar_nonce ar_bal ar_code ga_addr ga_nonce ga_bal ga_code described fst snd].
  assert (Hp : forall a, put_acc addr a (tb_plain t) = tb_plain t ++ [(addr, (a, []))]).
  { intros a. unfold put_acc. assert (Hl : bm_lookup addr (tb_plain t) = None).
    { apply bm_lookup_None. intros Hi. apply Hn in Hi. lia. }
    rewrite Hl. apply bm_insert_last. auto. }
  unfold code_of, norm_acc. destruct (ac_code acc) as [h|] eqn:Ec.
  - destruct (N.eqb_spec h (sv_code E [])) as [He|He].
    + eexists. split; [reflexivity|]. cbn [tb_plain]. rewrite Hp. auto.
    + destruct (Hc h Ec He) as (c & -> & L2 & L3). destruct c as [|x c]; [congruence|]. rewrite L3.
      eexists. split; [reflexivity|]. cbn [tb_plain]. rewrite Hp, L2. auto.
  - eexists. split; [reflexivity|]. cbn [tb_plain]. rewrite Hp. auto.
Qed.
Lemma import_chunks m hs gs f rest acc addr fuel prev : forall cs t ss st, Forall (fun c => len c <= 65536) cs ->
  tb_plain t = st ++ [(addr, (acc, ss))] -> bm_sorted (tb_plain t) ->
  exists t', tb_plain t' = st ++ [(addr, (acc, fold_left put_slot (concat cs) ss))] /\ (tabs_ok t -> tabs_ok t') /\
    import_loop E (length cs + fuel) (rdr m hs (map Some (tail_recs cs gs) ++ Some (SEnd f) :: rest) None) (Some addr) prev t =
    import_loop E fuel (rdr m hs (map Some (body gs) ++ Some (SEnd f) :: rest) None) (Some addr) prev t'.
Proof.
  induction cs as [|c cs IH]; intros t ss st Hb Hp Hs; cbn [length Nat.add].
  - exists t. auto.
  - inversion Hb; subst. rewrite tail_storage. cbn [map app import_loop]. rewrite entry_storage by auto.
    assert (Hp' : tb_plain (write_storage_chunk E t addr c) = st ++ [(addr, (acc, fold_left put_slot c ss))]).
    { unfold write_storage_chunk, put_slots. cbn [tb_plain]. rewrite Hp in *. destruct (sorted_snoc_lt _ _ _ Hs) as [S1 S2].
      rewrite <- (bm_insert_last addr (acc, ss) st) at 1 by auto. rewrite bm_lookup_insert, N.eqb_refl by auto.
      rewrite <- (bm_insert_last addr (acc, fold_left put_slot c ss) st) by auto. clear - S1 S2.
      induction st as [|[k v] st IH].
      - cbn [app bm_insert]. rewrite N.ltb_irrefl, N.eqb_refl. auto.
      - cbn [app bm_insert]. assert (k < addr) by (apply S2; cbn; auto). destruct (N.ltb_spec addr k); [lia|].
        destruct (N.eqb_spec addr k); [lia|]. f_equal. apply IH; [eapply bm_tail; eauto|]. intros x Hx. apply S2. cbn. auto. }
    destruct (IH (write_storage_chunk E t addr c) (fold_left put_slot c ss) st) as (t' & T1 & T2 & T3); auto.
    { unfold write_storage_chunk. cbn [tb_plain]. unfold put_slots. destruct (bm_lookup addr (tb_plain t)) as [[? ?]|]; auto. apply bm_insert_sorted. auto. }
    exists t'. split; [rewrite T1; cbn [concat]; rewrite fold_left_app; auto|]. split; [intros Ht; apply T2, tabs_chunk; auto|]. auto.
Qed.
Lemma import_described m hs f rest cs : forall todo gs done t cur prev fuel, wf_state (done ++ todo) ->
  Forall (fun e => code_good cs (fst (snd e))) todo -> Forall2 says (map (described E cs) todo) gs ->
  tabs_ok t -> tb_plain t = norm E done -> (forall p, prev = Some p -> Forall (fun e => p < fst e) todo) ->
  (length (body gs) < fuel)%nat ->
  exists t', import_loop E fuel (rdr m hs (map Some (body gs) ++ Some (SEnd f) :: rest) None) cur prev t = inl t' /\
    tb_plain t' = norm E (done ++ todo) /\ tabs_ok t'.
Proof.
  induction todo as [|[addr [acc ss]] todo IH]; intros gs done t cur prev fuel Hw Hc Hg Ht Hp Hpv Hf.
  - inversion Hg; subst. destruct fuel as [|fuel]; [lia|]. cbn. exists t. rewrite app_nil_r. auto.
  - cbn [map] in Hg. inversion Hg as [|? g ? gs' G1 G2]; subst. inversion Hc as [|? ? C1 C2]; subst. cbn [fst snd] in C1.
    destruct g as [a ccs]. rewrite body_cons in *. cbn [length] in Hf. destruct fuel as [|fuel]; [lia|].
    assert (Hlow : forall x, In x (bm_keys (tb_plain t)) -> x < addr).
    { rewrite Hp, norm_keys. intros x Hx. destruct Hw as [Hs _]. clear - Hs Hx. unfold bm_sorted, bm_keys in Hs. rewrite map_app in Hs.
      cbn [map fst] in Hs. fold (bm_keys done) in Hs. induction (bm_keys done) as [|y l IHl]; [destruct Hx|].
      cbn [app] in Hs. inversion Hs as [|? ? S1 S2]; subst. destruct Hx as [->|Hx]; auto.
      rewrite Forall_forall in S2. apply S2. apply in_or_app. right. left. auto. }
    destruct (header_described cs t addr acc ss (a, ccs) Ht C1 G1 Hlow) as (t1 & W1 & W2). cbn [fst] in W1.
    pose proof (tabs_header _ _ _ Ht W1) as Ht1.
    cbn [map app import_loop]. rewrite entry_account.
    assert (Ha : ar_addr a = addr) by (destruct G1 as [G1 _]; cbn [fst] in G1; rewrite G1; auto).
    assert (Hord : (match prev with Some p => ar_addr a <=? p | None => false end) = false).
    { destruct prev as [p|]; auto. specialize (Hpv p eq_refl). inversion Hpv; subst. apply N.leb_gt. auto. }
    rewrite Hord, W1, Ha.
    assert (Hcut : cut ss ccs).
    { destruct G1 as [_ G1]. cbn [snd described ga_storage fst] in G1. destruct ss; auto. }
    destruct (import_chunks m hs gs' f rest (norm_acc E acc) addr (fuel - length ccs) (Some addr) ccs t1 [] (tb_plain t)) as (t2 & T1 & T2 & T3);
      [eapply cut_bounded; eauto|auto|apply Ht1|].
    unfold tail_recs in Hf. rewrite app_length, map_length in Hf.
    replace (length ccs + (fuel - length ccs))%nat with fuel in T3 by lia.
    rewrite T3. destruct Hw as [Hs Hz].
    assert (Hss : fold_left put_slot (concat ccs) [] = ss).
    { destruct Hcut as [-> _]. rewrite Forall_forall in Hz. destruct (Hz (addr, (acc, ss))) as [Z1 Z2]; [apply in_or_app; right; left; auto|].
      apply put_list_id; auto. }
    rewrite Hss in T1. destruct (IH gs' (done ++ [(addr, (acc, ss))]) t2 (Some addr) (Some addr) (fuel - length ccs)%nat) as (t' & I1 & I2 & I3); auto.
    + rewrite <- app_assoc. split; auto.
    + rewrite T1, norm_app, Hp. auto.
    + intros p Hpp. injection Hpp as <-. apply Forall_forall. intros e He. assert (Hs2 : bm_sorted ((addr, (acc, ss)) :: todo)).
      { clear - Hs. unfold bm_sorted, bm_keys in *. rewrite map_app in Hs. induction (map fst done); auto. inversion Hs; auto. }
      apply (bm_head_lt _ _ _ (fst e) Hs2). apply in_map. auto.
    + lia.
    + exists t'. rewrite I1, I2, <- app_assoc. auto.
Qed.
End Import.
