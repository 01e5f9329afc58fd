(* db load-state end to end, and the round trip from an export. *)
From Verif Require Import Util EpochModel EpochSpec EpochProofs GasModel SnModel SnSpec SnMaps SnPack SnWrite SnImport SnRestore.
Local Open Scope N_scope.

(* ---------- the record chain ---------- *)
Section Chain.
Variables (EE : eenv) (signed : signing) (faulty genesis : list N) (truth : nat -> erec).
Hypothesis He : eenv_sound EE signed.
Hypothesis Ht : true_chain EE signed faulty genesis truth.
Lemma chain_fold_true cm rs : forall prev i r,
  (prev = None /\ i = O \/ exists j, i = S j /\ prev = Some (truth j)) ->
  chain_fold EE genesis cm prev i rs = inl r -> match r with None => prev = None /\ rs = [] | Some x => x = truth (er_epoch x) end.
Proof.
  induction rs as [|x rs IH]; intros prev i r Hp; cbn [chain_fold].
  - intros H. injection H as <-. destruct Hp as [[-> _]|(j & _ & ->)]; [auto|]. rewrite (tc_epoch _ _ _ _ _ Ht). auto.
  - set (pc := match prev with None => (DEFAULT_DIGEST, genesis) | Some p => (ee_dig EE p, uniq (er_next p)) end).
    destruct pc as [parent com] eqn:Epc. destruct (cget cm (ee_dig EE x)) as [ce|]; [|discriminate].
    destruct (validate_against_anchor EE i x ce parent com) eqn:Ev; try discriminate. intros H.
    assert (Hcom : NoDup com /\ (3 * length (interN com faulty) < length com)%nat).
    { destruct Hp as [[-> _]|(j & _ & ->)]; unfold pc in Epc; injection Epc as <- <-; [apply (tc_gen _ _ _ _ _ Ht)|].
      rewrite uniq_id by apply (tc_next _ _ _ _ _ Ht). apply (tc_next _ _ _ _ _ Ht). }
    destruct Hcom as [C1 C2]. destruct (accepted_honest EE signed i x ce parent com faulty He Ev C1 C2) as (A1 & _ & _ & k & _ & K2 & K3).
    pose proof (tc_honest _ _ _ _ _ Ht k x K2 K3) as Hx. rewrite A1 in Hx.
    apply IH in H; [|right; exists i; rewrite Hx; auto]. destruct r as [y|]; auto. destruct H; discriminate.
Qed.
Lemma verify_chain_true rs cm r : verify_chain EE genesis rs cm = inl r -> r = truth (er_epoch r).
Proof.
  unfold verify_chain. destruct (contig_records 0 rs); [|discriminate]. cbn [negb].
  destruct (chain_fold EE genesis cm None 0 rs) as [[x|]|e] eqn:Ec; try discriminate. intros H. injection H as <-.
  apply (chain_fold_true cm rs None O (Some x)); auto.
Qed.
Lemma preflight_inv E b r : preflight E EE genesis b = inl r -> r = truth (er_epoch r) /\ er_epoch r <> O /\
  exists rd, open_pack E (bu_state b) = inl rd /\ sv_fs E (me_num (rd_meta rd)) (me_hash (rd_meta rd)) = er_state r.
Proof.
  unfold preflight. destruct (reject_non_resumable b) as [[rs cs]|e] eqn:Er; [|discriminate].
  destruct (verify_chain EE genesis rs (cert_map cs)) as [x|e] eqn:Ev; [|discriminate].
  destruct (check_matches_record E (bu_state b) x) as [[]|e] eqn:Em; [|discriminate]. intros H. injection H as <-.
  split; [eapply verify_chain_true; eauto|]. split.
  - unfold reject_non_resumable in Er. destruct (bu_cons b); [|discriminate]. destruct (bu_recs b) as [rs'|]; [|discriminate].
    destruct (bu_certs b) as [cs'|]; [|discriminate]. destruct (rev rs') as [|y l] eqn:El; [discriminate|].
    destruct (er_epoch y =? 0)%nat eqn:E0; [discriminate|]. injection Er as <- <-. apply Nat.eqb_neq in E0.
    (* the record returned is the last one *)
    assert (Hx : forall l' prev i r', chain_fold EE genesis (cert_map cs') prev i l' = inl r' -> r' = match rev l' with [] => prev | z :: _ => Some z end).
    { induction l' as [|z l' IH]; intros prev i r'; cbn [chain_fold].
      - intros H. injection H as <-. auto.
      - destruct (match prev with None => _ | Some p => _ end) as [parent com]. destruct (cget _ _) as [ce|]; [|discriminate].
        destruct (validate_against_anchor _ _ _ _ _ _); try discriminate. intros H. apply IH in H. rewrite H. cbn [rev].
        destruct (rev l'); auto. }
    unfold verify_chain in Ev. destruct (contig_records 0 rs'); [|discriminate]. cbn [negb] in Ev.
    destruct (chain_fold EE genesis (cert_map cs') None 0 rs') as [[z|]|e] eqn:Ec; try discriminate. injection Ev as <-.
    apply Hx in Ec. rewrite El in Ec. injection Ec as ->. auto.
  - unfold check_matches_record in Em. destruct (open_pack E (bu_state b)) as [rd|e]; [|discriminate].
    destruct (N.eqb_spec (sv_fs E (me_num (rd_meta rd)) (me_hash (rd_meta rd))) (er_state x)) as [Hq|]; [|discriminate]. eauto.
Qed.
End Chain.

(* ---------- clean-up ---------- *)
Lemma clean_last pre d : last (clean pre d) d = mk_sdir None (if is_some (dd_db pre) then dd_db d else None)
  (if is_some (dd_sf pre) then dd_sf d else None) (if is_some (dd_cons pre) then dd_cons d else None).
Proof. unfold clean. destruct (is_some (dd_db pre)), (is_some (dd_sf pre)), (is_some (dd_cons pre)); auto. Qed.
Lemma last_app2 {A} (a b : list A) d : b <> [] -> last (a ++ b) d = last b d.
Proof.
  intros Hb. destruct (exists_last Hb) as (l & x & ->). rewrite app_assoc, !last_last. auto.
Qed.
Lemma last_default {A} (l : list A) d d' : l <> [] -> last l d = last l d'.
Proof. intros H. destruct (exists_last H) as (a & x & ->). rewrite !last_last. auto. Qed.
Lemma clean_durable E c g b pre d : fresh pre -> durable_ok E c g b d -> Forall (durable_ok E c g b) (clean pre d).
Proof.
  intros [F1 F2] [D1 D2]. unfold clean. rewrite F1, F2. cbn [is_some].
  assert (A : forall m s co, (0 < tip (mk_sdir m None s co) -> m = Some b) -> durable_ok E c g b (mk_sdir m None s co)).
  { intros m s co H. split; [auto|]. cbn [dd_db]. discriminate. }
  assert (T : forall m co, tip (mk_sdir m None None co) = 0) by auto.
  repeat (constructor; [destruct (is_some (dd_cons pre)); cbn [dd_marker dd_db dd_sf dd_cons]; apply A; first [exact D1|rewrite T; lia]|]).
  constructor.
Qed.

Section Load.
Variables (E : senv) (c : schain) (g : sgen) (EE : eenv) (signed : signing) (faulty genesis : list N) (truth : nat -> erec).
Hypothesis Hs : senv_sound E.
Hypothesis Hc : chain_ok E c.
Hypothesis Hg : bm_sorted (tb_codes (g_tabs g)).
Hypothesis He : eenv_sound EE signed.
Hypothesis Ht : true_chain EE signed faulty genesis truth.
Hypothesis Hcert : certifies E c truth.

Lemma preflight_names b r : preflight E EE genesis b = inl r ->
  r = truth (er_epoch r) /\ er_epoch r <> O /\ exists h, names_block E c (bu_state b) (sh_num h) h /\ er_state r = sv_fs E (sh_num h) (sv_hash E h).
Proof.
  intros H. destruct (preflight_inv EE signed faulty genesis truth He Ht E b r H) as (H1 & H2 & rd & H3 & H4).
  split; auto. split; auto. destruct (Hcert (er_epoch r)) as (h & C1 & C2). rewrite <- H1 in C2. rewrite C2 in H4. apply (so_fs _ Hs) in H4 as [H5 H6].
  exists h. split; auto. exists rd. auto.
Qed.

Lemma load_run d b co tr r : startable E g d -> load_state E EE genesis g d b co = (tr, r) ->
  (exists e, preflight E EE genesis b = inr e /\ tr = [] /\ r = inr e) \/
  exists rec h, preflight E EE genesis b = inl rec /\ rec = truth (er_epoch rec) /\ er_epoch rec <> O /\
    names_block E c (bu_state b) (sh_num h) h /\ er_state rec = sv_fs E (sh_num h) (sv_hash E h) /\
    (fresh d -> Forall (durable_ok E c g (sh_num h)) tr) /\
    (forall fs root, r = inl (fs, root) -> fs = er_state rec /\ root = sh_root h /\ restored E c g (sh_num h) (last tr d) /\
        check_ready E (norm E (ch_state c (sh_num h))) (sh_num h) = inl tt /\ dd_cons (last tr d) = Some (N.of_nat (er_epoch rec))) /\
    (forall e, r = inr e -> dd_marker (last tr d) = None /\
        (dd_db d = None -> dd_db (last tr d) = None) /\ (dd_sf d = None -> dd_sf (last tr d) = None) /\ (dd_cons d = None -> dd_cons (last tr d) = None)).
Proof.
  intros Hst. unfold load_state. destruct (preflight E EE genesis b) as [rec|e] eqn:Ep.
  2:{ intros H. injection H as <- <-. left. eauto. }
  intros H. right. destruct (preflight_names _ _ Ep) as (P1 & P2 & h & P3 & P4). exists rec, h.
  split; [auto|]. split; [auto|]. split; [auto|]. split; [auto|]. split; [auto|].
  destruct (restore_pack E g d (bu_state b)) as [t r0] eqn:Er. destruct (restore_run E c g Hs Hc Hg d (bu_state b) _ h t r0 Hst P3 Er) as (R1 & R2 & R3).
  assert (Cn : forall x : sdir, clean d x <> []) by (intros x; unfold clean; discriminate).
  destruct r0 as [[d' root]|e].
  - destruct (R3 d' root eq_refl) as (Q1 & Q2 & Q3 & Q4 & Q5).
    set (d2 := mk_sdir (dd_marker d') (dd_db d') (dd_sf d') (Some (N.of_nat (er_epoch rec)))) in *.
    assert (Q6 : restored E c g (sh_num h) d2).
    { destruct Q1 as [A1 A2 A3 A4 A5]. constructor; auto. }
    assert (Dd : fresh d -> durable_ok E c g (sh_num h) d').
    { intros Hf. specialize (R2 Hf). rewrite Forall_forall in R2. apply R2. rewrite <- Q5. destruct t as [|y t].
      - cbn in Q5. subst d'. destruct Q1 as [A1 _ _ _ _]. destruct Hf as [_ Hf]. unfold tip in A1. rewrite Hf in A1. lia.
      - destruct (@exists_last _ (y :: t) ltac:(discriminate)) as (l & z & Hl). rewrite Hl, last_last. apply in_or_app. right. left. auto. }
    assert (Dd2 : fresh d -> durable_ok E c g (sh_num h) d2) by (intros Hf; apply (Dd Hf)).
    destruct co; injection H as <- <-.
    + split; [intros Hf; apply Forall_app; auto|]. split; [|discriminate].
      intros fs root' Heq. injection Heq as <- <-. rewrite last_last. repeat split; auto; apply Q6.
    + split; [intros Hf; apply Forall_app; split; [auto|]; constructor; [auto|]; apply clean_durable; auto|]. split; [discriminate|].
      intros e _. change (t ++ d2 :: clean d d2) with (t ++ [d2] ++ clean d d2). rewrite app_assoc.
      rewrite last_app2 by auto. rewrite (last_default _ d d2) by auto. rewrite clean_last. cbn [dd_marker dd_db dd_sf dd_cons].
      split; [auto|]. split; [intros ->; auto|]. split; intros ->; auto.
  - injection H as <- <-. split; [|split; [discriminate|]].
    + intros Hf. apply Forall_app. split; auto. apply clean_durable; auto. specialize (R2 Hf). rewrite Forall_forall in R2. destruct t as [|y t].
      * cbn [last]. destruct Hf as [F1 F2]. split; [unfold tip; rewrite F2; lia|rewrite F1; discriminate].
      * apply R2. destruct (@exists_last _ (y :: t) ltac:(discriminate)) as (l & z & Hl). rewrite Hl, last_last. apply in_or_app. right. left. auto.
    + intros e0 _. rewrite last_app2 by auto. rewrite (last_default _ d (last t d)) by auto. rewrite clean_last. cbn [dd_marker dd_db dd_sf dd_cons].
      split; [auto|]. split; [intros ->; auto|]. split; intros ->; auto.
Qed.
End Load.

(* an existing chain is refused and left as it is, marker aside *)
Lemma restore_existing E g d s t r0 : 0 < tip d -> restore_pack E g d s = (t, r0) -> t = [] /\ exists e, r0 = inr e.
Proof.
  intros Hp Er. unfold restore_pack in Er. destruct (open_pack E s) as [rd|e]; [|injection Er as <- <-; eauto].
  destruct (restorer_open E g d) as [t1 r1] eqn:Eo. destruct (refuse_tip _ _ _ _ _ Hp Eo) as [-> [e ->]]. injection Er as <- <-. eauto.
Qed.
Lemma load_existing E EE genesis g d b co tr r : 0 < tip d -> load_state E EE genesis g d b co = (tr, r) ->
  (exists e, r = inr e) /\ Forall (fun d' => dd_db d' = dd_db d /\ dd_sf d' = dd_sf d /\ dd_cons d' = dd_cons d) tr.
Proof.
  intros Hp. unfold load_state. destruct (preflight E EE genesis b) as [rec|e]; [|intros H; injection H as <- <-; eauto].
  destruct (restore_pack E g d (bu_state b)) as [t r0] eqn:Er.
  pose proof (restore_existing _ _ _ _ _ _ Hp Er) as Ht.
  destruct Ht as [-> [e ->]]. intros H. injection H as <- <-. split; [eauto|]. cbn [app last]. unfold clean.
  destruct d as [m db sf cs]. cbn [dd_marker dd_db dd_sf dd_cons is_some].
  destruct db, sf, cs; cbn [dd_marker dd_db dd_sf dd_cons is_some]; repeat constructor.
Qed.

(* ---------- the round trip ---------- *)
Lemma ins_head h l : Forall (fun x => sh_num (fst h) < sh_num (fst x)) l -> ins_num h l = h :: l.
Proof. intros H. destruct l as [|x l]; auto. inversion H; subst. cbn [ins_num]. apply N.ltb_lt in H2. rewrite H2. auto. Qed.

(* the window an exporter gathers, in ascending order: blocks lo..lo+k-1 *)
Fixpoint span (E : senv) (c : schain) (lo : N) (k : nat) : list (shdr * N) :=
  match k with
  | O => []
  | S k' => match ch_hdr c lo with Some h => (h, sv_hash E h) :: span E c (lo + 1) k' | None => [] end
  end.
Section Span.
Variables (E : senv) (c : schain).
Hypothesis Hc : chain_ok E c.
Lemma chain_down n : forall m h, ch_hdr c (m + N.of_nat n) = Some h -> exists p, ch_hdr c m = Some p.
Proof.
  induction n as [|n IH]; intros m h H.
  - rewrite N.add_0_r in H. eauto.
  - apply IH with (h := h) (m := m + 1) in H as [p Hp] || (replace (m + N.of_nat (S n)) with ((m + 1) + N.of_nat n) in H by lia; apply IH in H as [p Hp]).
    destruct (co_dense _ _ Hc _ _ Hp) as (q & Hq & _). eauto.
Qed.
Lemma ancestors_spec n : forall num h, (N.of_nat n <= num)%N -> ch_hdr c num = Some h ->
  exists t, ancestors c n (num - 1) = inl t /\ forall k hk, nth_error t k = Some hk -> ch_hdr c (num - 1 - N.of_nat k) = Some hk.
Proof.
  induction n as [|n IH]; intros num h Hn Hh; cbn [ancestors].
  - exists []. split; auto. intros [|k] hk; discriminate.
  - assert (Hp : exists p, ch_hdr c (num - 1) = Some p).
    { replace num with ((num - 1) + 1) in Hh by lia. destruct (co_dense _ _ Hc _ _ Hh) as (p & Hp & _). eauto. }
    destruct Hp as [p Hp]. rewrite Hp. destruct (IH (num - 1) p) as (t & -> & Ht); [lia|auto|]. exists (p :: t). split; auto.
    intros [|k] hk Hk; cbn [nth_error] in Hk.
    + injection Hk as <-. rewrite <- Hp. f_equal. lia.
    + apply Ht in Hk. rewrite <- Hk. f_equal. lia.
Qed.
Lemma ancestors_len n : forall num t, ancestors c n num = inl t -> length t = n.
Proof.
  induction n as [|n IH]; intros num t; cbn [ancestors]; [intros H; injection H as <-; auto|].
  destruct (ch_hdr c num) as [h|]; [|discriminate]. destruct (ancestors c n (num - 1)) as [l|e] eqn:Ea; [|discriminate].
  intros H. injection H as <-. cbn [length]. f_equal. eapply IH; eauto.
Qed.
(* folding the descending headers in gives the ascending span *)
Lemma span_fold t : forall hi l, (forall k hk, nth_error t k = Some hk -> ch_hdr c (hi - N.of_nat k) = Some hk) -> (N.of_nat (length t) <= hi + 1)%N ->
  Forall (fun x : shdr * N => hi < sh_num (fst x)) l ->
  fold_left (fun l h => ins_num (h, sv_hash E h) l) t l = span E c (hi + 1 - N.of_nat (length t)) (length t) ++ l.
Proof.
  induction t as [|h t IH]; intros hi l Hn Hl Hf; cbn [fold_left length span app]; auto.
  cbn [length] in Hl. pose proof (Hn O h eq_refl) as Hh. rewrite N.sub_0_r in Hh. pose proof (co_num _ _ Hc _ _ Hh) as Hnum.
  rewrite ins_head by (cbn [fst]; rewrite Hnum; auto).
  destruct (length t) as [|m] eqn:Em.
  - destruct t; [|discriminate]. cbn [fold_left]. replace (hi + 1 - N.of_nat 1) with hi by lia. rewrite Hh. cbn [span app]. auto.
  - rewrite <- Em in *. rewrite (IH (hi - 1)).
    + assert (Hsp : forall k lo, (lo + N.of_nat k = hi)%N -> (exists q, ch_hdr c lo = Some q) -> span E c lo (S k) = span E c lo k ++ [(h, sv_hash E h)]).
      { induction k as [|k IHk]; intros lo Hlo [q Hq].
        - replace lo with hi by lia. cbn [span]. rewrite Hh. auto.
        - change (span E c lo (S (S k))) with (match ch_hdr c lo with Some h0 => (h0, sv_hash E h0) :: span E c (lo + 1) (S k) | None => [] end).
          rewrite Hq. cbn [span]. rewrite Hq. cbn [app]. rewrite <- IHk; [auto|lia|].
          apply (chain_down k (lo + 1) h). rewrite <- Hh. f_equal. lia. }
      replace (hi - 1 + 1 - N.of_nat (length t)) with (hi + 1 - N.of_nat (S (length t))) by lia.
      change (match ch_hdr c (hi + 1 - N.of_nat (S (length t))) with Some h0 => _ | None => _ end) with (span E c (hi + 1 - N.of_nat (S (length t))) (S (length t))).
      rewrite Hsp; [rewrite <- app_assoc; auto|lia|].
      apply (chain_down (length t) _ h). rewrite <- Hh. f_equal. lia.
    + intros k hk Hk. rewrite <- (Hn (S k) hk Hk). f_equal. lia.
    + lia.
    + constructor; [cbn [fst]; lia|]. eapply Forall_impl; [|exact Hf]. cbn. intros x Hx. lia.
Qed.
Lemma span_ok k : forall lo, (exists h, ch_hdr c (lo + N.of_nat k) = Some h) ->
  length (span E c lo (S k)) = S k /\ contiguous lo (span E c lo (S k)) = true /\ linked (span E c lo (S k)) = true /\
  Forall (fun x => lo <= sh_num (fst x)) (span E c lo (S k)) /\ (exists h, ch_hdr c (lo + N.of_nat k) = Some h /\ exists r, rev (span E c lo (S k)) = (h, sv_hash E h) :: r).
Proof.
  induction k as [|k IH]; intros lo [h Hh].
  - rewrite N.add_0_r in *. cbn [span]. rewrite Hh. cbn [length contiguous linked rev app]. pose proof (co_num _ _ Hc _ _ Hh) as Hn.
    rewrite Hn, N.eqb_refl. repeat split; auto; [constructor; [cbn; lia|auto]|eauto].
  - assert (H1 : exists x, ch_hdr c (lo + 1 + N.of_nat k) = Some x) by (exists h; rewrite <- Hh; f_equal; lia).
    destruct (IH _ H1) as (I1 & I2 & I3 & I4 & (x & I5 & r & I6)). destruct (chain_down (S k) lo h Hh) as [p Hp].
    pose proof (co_num _ _ Hc _ _ Hp) as Hn.
    assert (Hq : exists q, ch_hdr c (lo + 1) = Some q /\ sh_parent q = sv_hash E p).
    { destruct (chain_down k (lo + 1) x I5) as [q Hq]. exists q. split; auto. destruct (co_dense _ _ Hc _ _ Hq) as (p' & P1 & P2). congruence. }
    destruct Hq as (q & Q1 & Q2).
    change (span E c lo (S (S k))) with (match ch_hdr c lo with Some h0 => (h0, sv_hash E h0) :: span E c (lo + 1) (S k) | None => [] end). rewrite Hp.
    split; [cbn [length]; lia|]. split; [cbn [contiguous]; rewrite Hn, N.eqb_refl; exact I2|]. split.
    + cbn [span] in *. rewrite Q1 in *. cbn [linked] in *. rewrite Q2, N.eqb_refl. auto.
    + split; [constructor; [cbn; lia|eapply Forall_impl; [|exact I4]; cbn; intros y Hy; lia]|].
      exists h. split; auto. exists (r ++ [(p, sv_hash E p)]). cbn [rev]. rewrite I6.
      assert (x = h); [|subst x; auto]. replace (lo + 1 + N.of_nat k) with (lo + N.of_nat (S k)) in I5 by lia. congruence.
Qed.
End Span.

Section Round.
Variables (E : senv) (c : schain) (g : sgen).
Hypothesis Hs : senv_sound E.
Hypothesis Hc : chain_ok E c.
Hypothesis Hg : bm_sorted (tb_codes (g_tabs g)).

Lemma gathered anchor num : ch_hdr c num = Some anchor -> 0 < num ->
  exists t, gather_headers c anchor = inl (anchor :: t) /\ len (anchor :: t) = num - N.max (num - 256) 1 + 1 /\
    scaffold_window E (anchor :: t) = span E c (N.max (num - 256) 1) (S (N.to_nat (num - N.max (num - 256) 1))).
Proof.
  intros Ha Hn. unfold gather_headers, BLOCKHASH_ANCESTORS. rewrite (co_num _ _ Hc _ _ Ha). set (lo := N.max (num - 256) 1) in *.
  destruct (ancestors_spec E c Hc (N.to_nat (num - lo)) num anchor) as (t & Ht & Hk); [lia|auto|]. rewrite Ht. exists t.
  pose proof (ancestors_len _ _ _ _ Ht) as Hl. split; auto. split; [unfold len; cbn [length]; lia|].
  unfold scaffold_window. rewrite (span_fold E c Hc (anchor :: t) num []).
  - rewrite app_nil_r. cbn [length]. rewrite Hl. replace (num + 1 - N.of_nat (S (N.to_nat (num - lo)))) with lo by lia.
    destruct (span_ok E c Hc (N.to_nat (num - lo)) lo) as (_ & _ & _ & Hf & _).
    { exists anchor. rewrite <- Ha. f_equal. lia. }
    assert (Hlo : 1 <= lo) by lia. clearbody lo. generalize dependent (span E c lo (S (N.to_nat (num - lo)))). intros w Hf.
    induction Hf as [|x w Hx _ IH]; auto. cbn [filter]. destruct (N.eqb_spec (sh_num (fst x)) 0); [lia|]. cbn [negb]. rewrite IH. auto.
  - intros [|k] hk Hkk; cbn [nth_error] in Hkk.
    + injection Hkk as <-. rewrite N.sub_0_r. auto.
    + apply Hk in Hkk. rewrite <- Hkk. f_equal. lia.
  - cbn [length]. lia.
  - constructor.
Qed.

Lemma round_trip d num anchor v t recs sts : startable E g d -> 0 < num -> ch_hdr c num = Some anchor -> gather_headers c anchor = inl t ->
  view_shows v (ch_state c num) -> codes_for E (vw_codes v) (ch_state c num) -> (forall h cd, bm_lookup h (vw_codes v) = Some cd -> sv_codeok E cd = true) ->
  check_ready E (ch_state c num) num = inl tt ->
  export_state_pack E v (sh_root anchor) t = inl (recs, sts) ->
  names_block E c (map Some recs) num anchor /\
  exists tr d', restore_pack E g d (map Some recs) = (tr, inl (d', sh_root anchor)).
Proof.
  intros Hst Hn Ha Ht Hv Hcf Hok Hr Hex. pose proof (co_num _ _ Hc _ _ Ha) as Hnum.
  destruct (gathered anchor num Ha Hn) as (t' & Ht' & Hlen & Hwin). rewrite Ht in Ht'. injection Ht' as ->.
  pose proof (co_wf _ _ Hc num) as Hw.
  destruct (export_spec E v (ch_state c num) (sh_root anchor) anchor t' Hv Hw Hcf eq_refl) as (gs & Hex' & Hsay).
  rewrite Hex in Hex'. injection Hex' as Hrecs Hsts. set (hs := anchor :: t') in *.
  set (m := mk_smeta (sh_root anchor) (sh_num anchor) (sv_hash E anchor) (len hs mod 2 ^ 32)).
  assert (Hmod : len hs mod 2 ^ 32 = len hs) by (apply N.mod_small; rewrite Hlen; change (2 ^ 32) with 4294967296; lia).
  assert (Hstream : map Some recs = Some (SMeta m) :: map (fun b => Some (SHeader b)) (map (sv_enc E) hs) ++ map Some (body gs) ++ [Some (SEnd (counts gs))]).
  { rewrite Hrecs. unfold hs, m. cbn [map app]. rewrite !map_app, !map_map. auto. }
  assert (Hopen : open_pack E (map Some recs) = inl (mk_sr m hs (map Some (body gs) ++ [Some (SEnd (counts gs))]) None false)).
  { apply open_spec. exists m, (map (sv_enc E) hs), hs, (map Some (body gs) ++ [Some (SEnd (counts gs))]). split; [|split; [|split; [|split]]]; auto.
    - clear - Hs. induction hs as [|x hs IH]; cbn [map]; constructor; auto. apply (so_rlp _ Hs).
    - unfold count_ok, m. cbn [me_count me_num]. rewrite Hmod, Hlen, Hnum. lia. }
  split; [eexists; split; [exact Hopen|]; unfold m; cbn [rd_meta me_num me_hash]; auto|].
  assert (Hm1 : me_num m = num) by exact Hnum. assert (Hm2 : me_hash m = sv_hash E anchor) by auto. assert (Hm3 : me_root m = sh_root anchor) by auto.
  clearbody m. unfold restore_pack. rewrite Hopen. cbn [rd_meta rd_headers]. rewrite Hm1, Hm2.
  destruct (restorer_open E g d) as [t1 [d0|e]] eqn:Eo.
  2:{ exfalso. unfold restorer_open, env_new in Eo. destruct Hst as [[F1 F2]|(db & F1 & F2 & _)].
      - rewrite F1, F2 in Eo. cbn in Eo. discriminate.
      - rewrite F1, F2, N.eqb_refl in Eo. unfold tip in Eo. rewrite F2 in Eo. discriminate. }
  destruct (open_start _ _ _ _ _ Hg Hst Eo) as (S1 & S2 & S3 & S4 & db & S5 & S6 & S7 & S8).
  set (lo := N.max (num - 256) 1) in *.
  destruct (span_ok E c Hc (N.to_nat (num - lo)) lo) as (W1 & W2 & W3 & W4 & (hx & W5 & rr & W6)).
  { exists anchor. rewrite <- Ha. f_equal. lia. }
  assert (hx = anchor). { replace (lo + N.of_nat (N.to_nat (num - lo))) with num in W5 by lia. congruence. } subst hx.
  fold hs in Hwin. rewrite Hwin. set (w := span E c lo (S (N.to_nat (num - lo)))) in *.
  assert (Hlo0 : exists h0 x0 w', w = (h0, x0) :: w' /\ sh_num h0 = lo).
  { destruct w as [|[h0 x0] w']; [discriminate|]. exists h0, x0, w'. split; auto. cbn [contiguous] in W2. apply andb_prop in W2 as [W2 _]. apply N.eqb_eq in W2. auto. }
  destruct Hlo0 as (h0 & x0 & w' & Hw0 & Hlo).
  destruct (import_chain_scaffold E d0 w num (sv_hash E anchor)) as [t2 [d2|e]] eqn:Ec.
  2:{ exfalso. clearbody w. rewrite Hw0 in Ec, W2, W3, W6. unfold import_chain_scaffold in Ec. rewrite W6 in Ec. rewrite Hlo in Ec. rewrite W2, W3 in Ec. rewrite Hnum, !N.eqb_refl in Ec.
      destruct (N.eqb_spec num 0); [lia|]. cbn [negb orb] in Ec. destruct (N.eqb_spec lo 0); [lia|].
      unfold BLOCKHASH_ANCESTORS in Ec. destruct (N.leb_spec lo (N.max (num - (256 - 1)) 1)); [|lia]. cbn [negb] in Ec.
      rewrite S5, S4 in Ec. discriminate. }
  destruct (scaffold_spec _ _ _ _ _ _ _ _ S4 Ec) as [Sc _].
  destruct (sc_db _ _ _ _ _ _ _ Sc) as (db0 & db3 & D0 & D1 & D2 & D3 & D4 & D5). rewrite S5 in D0. injection D0 as <-.
  assert (Hin : In (anchor, sv_hash E anchor) w) by (apply in_rev; rewrite W6; left; auto).
  pose proof (sc_heads _ _ _ _ _ _ _ Sc _ Hin) as Hhb. cbn [fst] in Hhb. rewrite Hnum in Hhb.
  destruct (import_described E (so_key _ Hs) (so_code _ Hs) m hs (counts gs) [] (vw_codes v) (ch_state c num) gs []
     (mk_tabs [] [] (tb_codes (b_tabs db))) None None (rd_fuel (mk_sr m hs (map Some (body gs) ++ [Some (SEnd (counts gs))]) None false))) as (tt' & I1 & I2 & I3); auto.
  { apply Forall_forall. intros [a [acc ss]] He h Hh Hne. cbn [fst snd] in Hh. apply bm_lookup_In in He; [|apply Hw].
    destruct (Hcf a acc ss h He Hh Hne) as (cd & C1 & C2). eauto. }
  { apply tabs_empty. auto. }
  { discriminate. }
  { unfold rd_fuel. cbn [rd_rest]. rewrite app_length, map_length. lia. }
  cbn [app] in I2.
  assert (Hroot : sv_root E (tb_hashed tt') = sh_root anchor).
  { rewrite (to_hashed _ _ I3), I2, <- norm_hashed, (so_norm _ Hs) by (auto using (so_key _ Hs)). symmetry. apply (co_root _ _ Hc). auto. }
  unfold import_state. rewrite D1, D2. unfold rdr in I1. rewrite I1. cbn [rd_meta]. rewrite Hm1, Hm3, Hroot, N.eqb_refl, Hhb, N.eqb_refl. cbn [negb].
  set (d3 := mk_sdir _ _ _ _).
  assert (Her : entry_readiness E d3 num (sv_hash E anchor) = inl tt).
  { unfold entry_readiness, d3. cbn [dd_db b_nums b_tabs]. rewrite D5.
    pose proof (nums_lookup w (bm_insert (sv_hash E anchor) num (b_nums db)) (bm_insert_sorted _ _ _ S6) _ Hin) as Hnl. cbn [fst snd] in Hnl.
    rewrite Hnl.
    - rewrite Hnum. unfold header_by_num. cbn [dd_sf]. unfold header_by_num in Hhb. rewrite Hhb, Hnum, N.eqb_refl. cbn [negb]. rewrite I2.
      unfold check_ready. destruct (so_read _ Hs (ch_state c num)) as [-> ->]. exact Hr.
    - intros x Hx Hxe. pose proof (window_sealed E hs) as Hse. rewrite Hwin in Hse. rewrite Forall_forall in Hse. pose proof (Hse _ Hx) as Hsx.
      unfold sealed in Hsx. rewrite Hsx in Hxe. apply (so_hash _ Hs) in Hxe. rewrite Hxe. auto. }
  rewrite Her. unfold finish, d3. cbn [dd_db dd_marker dd_sf dd_cons b_tabs b_nums].
  set (d4 := mk_sdir _ _ _ _).
  assert (Htip : tip d4 = num) by (pose proof (sc_tip _ _ _ _ _ _ _ Sc) as Hx; unfold tip in *; exact Hx).
  assert (Hh4 : header_by_num d4 num = Some (anchor, sv_hash E anchor)) by exact Hhb.
  rewrite Htip, Hh4, !N.eqb_refl. cbn [negb]. eauto.
Qed.

Lemma export_once_inv num hash views recs sts : export_once E c num hash views = inl (Some (recs, sts)) ->
  exists v anchor t, In v (firstn 8 views) /\ verify_tip v num hash = true /\ ch_hdr c num = Some anchor /\ gather_headers c anchor = inl t /\
    check_ready E (ch_state c num) (sh_num anchor) = inl tt /\ export_state_pack E v (sh_root anchor) t = inl (recs, sts).
Proof.
  unfold export_once, MAX_PIN_ATTEMPTS. generalize (firstn 8 views). induction l as [|v vs IH]; cbn [export_attempts]; [discriminate|].
  destruct (verify_tip v num hash) eqn:Ev; cbn [negb].
  - destruct (ch_hdr c num) as [anchor|] eqn:Ea; [|discriminate]. destruct (gather_headers c anchor) as [t|e] eqn:Eg; [|discriminate].
    destruct (check_ready E (ch_state c num) (sh_num anchor)) as [[]|e] eqn:Er; [|discriminate].
    destruct (export_state_pack E v (sh_root anchor) t) as [[r st]|e] eqn:Ex; [|discriminate]. intros H. injection H as <- <-.
    exists v, anchor, t. repeat split; auto. left. auto.
  - intros H. apply IH in H as (v' & an & t & H1 & H2). exists v', an, t. split; [right; auto|auto].
Qed.
End Round.
