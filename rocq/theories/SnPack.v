(* The pack format: what open, verify and the two read paths accept, and what the writer and the export walk produce. *)
From Verif Require Import Util EpochModel GasModel SnModel SnSpec SnMaps.
Local Open Scope N_scope.

Lemma sumN_app a b : sumN (a ++ b) = sumN a + sumN b.
Proof. unfold sumN. induction a as [|x a IH]; cbn [app fold_right]; [lia|]. rewrite IH. lia. Qed.
Lemma len_app {A} (a b : list A) : len (a ++ b) = len a + len b.
Proof. unfold len. rewrite app_length. lia. Qed.
Lemma len_cons {A} (x : A) a : len (x :: a) = len a + 1.
Proof. unfold len. cbn [length]. lia. Qed.
Lemma len_nil {A} : len (@nil A) = 0.
Proof. auto. Qed.

Lemma Forall2_length {A B} (P : A -> B -> Prop) l l' : Forall2 P l l' -> length l = length l'.
Proof. induction 1; cbn; auto. Qed.
(* ---------- headers, open ---------- *)
Lemma read_headers_spec E n : forall s hs r,
  read_headers E n s = inl (hs, r) <->
  exists bs, length bs = n /\ Forall2 (fun b h => sv_dec E b = Some h) bs hs /\ s = map (fun b => Some (SHeader b)) bs ++ r.
Proof.
  induction n as [|n IH]; intros s hs r; cbn [read_headers].
  - split.
    + intros H. injection H as <- <-. exists []. cbn. auto.
    + intros (bs & Hl & Hf & ->). destruct bs; [|discriminate]. inversion Hf; subst. cbn. auto.
  - split.
    + destruct s as [|[[m|b|a|c|e]|] s]; try discriminate. destruct (sv_dec E b) as [h|] eqn:Eb; [|discriminate].
      destruct (read_headers E n s) as [[hs' r']|e] eqn:Er; [|discriminate]. intros H. injection H as <- <-.
      apply IH in Er as (bs & Hl & Hf & ->). exists (b :: bs). cbn [length map app]. repeat split; auto.
    + intros (bs & Hl & Hf & ->). destruct bs as [|b bs]; [discriminate|]. cbn [length] in Hl. injection Hl as Hl.
      inversion Hf as [|? h ? hs' Hb Hf']; subst. cbn [map app]. rewrite Hb.
      assert (Hr : read_headers E (length bs) (map (fun b => Some (SHeader b)) bs ++ r) = inl (hs', r)).
      { apply IH. exists bs. auto. }
      rewrite Hr. auto.
Qed.

Lemma open_spec E s rd : open_pack E s = inl rd <->
  exists m bs hs r, Forall2 (fun b h => sv_dec E b = Some h) bs hs /\ len hs = me_count m /\ count_ok m /\
    s = Some (SMeta m) :: map (fun b => Some (SHeader b)) bs ++ r /\ rd = mk_sr m hs r None false.
Proof.
  unfold open_pack. split.
  - destruct s as [|[[m|b|a|c|e]|] s]; try discriminate.
    destruct (N.eqb_spec (me_count m) 0) as [|H0]; [discriminate|].
    destruct (N.ltb_spec MAX_HEADER_COUNT (me_count m)) as [|H1]; [discriminate|].
    destruct (N.ltb_spec (me_count m) (N.min (me_num m) BLOCKHASH_ANCESTORS)) as [|H2]; [discriminate|].
    destruct (read_headers E _ s) as [[hs r]|e] eqn:Er; [|discriminate]. intros H. injection H as <-.
    apply read_headers_spec in Er as (bs & Hl & Hf & ->). exists m, bs, hs, r.
    assert (Hlen : len hs = me_count m).
    { unfold len. rewrite <- (Forall2_length _ _ _ Hf), Hl. lia. }
    unfold count_ok, MAX_HEADER_COUNT, BLOCKHASH_ANCESTORS in *. repeat split; auto; lia.
  - intros (m & bs & hs & r & Hf & Hl & [Hc1 Hc2] & -> & ->). cbn [app].
    destruct (N.eqb_spec (me_count m) 0) as [|H0]; [lia|].
    destruct (N.ltb_spec MAX_HEADER_COUNT (me_count m)) as [H1|H1]; [unfold MAX_HEADER_COUNT in H1; lia|].
    destruct (N.ltb_spec (me_count m) (N.min (me_num m) BLOCKHASH_ANCESTORS)) as [H2|H2]; [unfold BLOCKHASH_ANCESTORS in H2; lia|].
    assert (Hr : read_headers E (N.to_nat (me_count m)) (map (fun b => Some (SHeader b)) bs ++ r) = inl (hs, r)).
    { apply read_headers_spec. exists bs. repeat split; auto. rewrite (Forall2_length _ _ _ Hf). unfold len in Hl. lia. }
    rewrite Hr. auto.
Qed.

(* ---------- vet ---------- *)
Lemma bound_ok c : check_chunk_bound c = true <-> len c <= 65536.
Proof. unfold check_chunk_bound, CHUNK. apply N.leb_le. Qed.
Lemma vet_inl i r : vet i = inl r -> i = Some r /\ (forall c, r = SStorage c -> len c <= 65536).
Proof.
  destruct i as [[m|b|a|c|e]|]; cbn [vet]; try (intros H; injection H as <-; split; [auto|intros c Hc; discriminate]); [|discriminate].
  destruct (check_chunk_bound c) eqn:Eb; [|discriminate]. intros H. injection H as <-. split; auto.
  intros c' Hc. injection Hc as <-. apply bound_ok. auto.
Qed.
Lemma vet_storage c : len c <= 65536 -> vet (Some (SStorage c)) = inl (SStorage c).
Proof. intros H. cbn [vet]. apply bound_ok in H. rewrite H. auto. Qed.

(* a run of chunks and then groups *)
Definition tail_recs (cs : list (list (N * N))) (gs : list group) : list srec := map SStorage cs ++ body gs.
Lemma tail_storage c cs gs : tail_recs (c :: cs) gs = SStorage c :: tail_recs cs gs.
Proof. auto. Qed.
Lemma tail_group a cs gs : tail_recs [] ((a, cs) :: gs) = SAccount a :: tail_recs cs gs.
Proof. auto. Qed.
Lemma body_cons a cs gs : body ((a, cs) :: gs) = SAccount a :: tail_recs cs gs.
Proof. auto. Qed.

(* ---------- the walk of verify ---------- *)
Definition add_stats (n : sstats) (cs : list (list (N * N))) (gs : list group) : sstats :=
  mk_sstats (ss_accounts n + ss_accounts (counts gs)) (ss_slots n + sumN (map len cs) + ss_slots (counts gs))
    (ss_codes n + ss_codes (counts gs)).
Lemma counts_cons a cs gs : counts ((a, cs) :: gs) =
  mk_sstats (ss_accounts (counts gs) + 1) (sumN (map len cs) + ss_slots (counts gs))
    ((if has_code (ar_code a) then 1 else 0) + ss_codes (counts gs)).
Proof.
  unfold counts. cbn [ss_accounts ss_slots ss_codes map fst snd filter]. rewrite len_cons. f_equal.
  unfold has_code. destruct (ar_code a) as [[|x l]|]; auto. rewrite len_cons. lia.
Qed.
Lemma verify_walk_spec s : forall saw n n' f,
  verify_walk s saw n = inl (n', f) <->
  exists cs gs rest, (saw = false -> cs = []) /\ Forall (fun c => len c <= 65536) cs /\ bounded gs /\
    s = map Some (tail_recs cs gs) ++ Some (SEnd f) :: rest /\ n' = add_stats n cs gs.
Proof.
  assert (F : forall s saw n n' f, verify_walk s saw n = inl (n', f) ->
    exists cs gs rest, (saw = false -> cs = []) /\ Forall (fun c => len c <= 65536) cs /\ bounded gs /\
    s = map Some (tail_recs cs gs) ++ Some (SEnd f) :: rest /\ n' = add_stats n cs gs).
  { clear s. induction s as [|i s IH]; intros saw n n' f; cbn [verify_walk]; [discriminate|].
    destruct (vet i) as [r|e] eqn:Ev; [|discriminate]. apply vet_inl in Ev as [-> Hb].
    destruct r as [m|b|a|c|e]; try discriminate.
    - intros H. apply IH in H as (cs & gs & rest & _ & H1 & H2 & -> & ->). exists [], ((a, cs) :: gs), rest.
      repeat split; auto; [constructor; auto|]. unfold add_stats. rewrite counts_cons. cbn [ss_accounts ss_slots ss_codes map].
      change (sumN []) with 0. f_equal; [lia|lia|]. destruct (has_code (ar_code a)); lia.
    - destruct saw; [|discriminate]. intros H. apply IH in H as (cs & gs & rest & _ & H1 & H2 & -> & ->).
      exists (c :: cs), gs, rest. repeat split; auto; [discriminate|]. unfold add_stats. cbn [ss_accounts ss_slots ss_codes map].
      change (sumN (len c :: map len cs)) with (len c + sumN (map len cs)). f_equal. lia.
    - intros H. injection H as <- <-. exists [], [], s. repeat split; auto; [constructor|].
      destruct n. unfold add_stats. cbn. f_equal; lia. }
  intros saw n n' f. split; [apply F|]. intros (cs & gs & rest & Hs & H1 & H2 & -> & ->).
  revert saw n cs Hs H1. induction H2 as [|[a gcs] gs Hg _ IHg]; intros saw n cs Hs H1.
  - revert saw n Hs. induction H1 as [|c cs Hc _ IH]; intros saw n Hs.
    + cbn. destruct n. unfold add_stats. cbn. do 2 f_equal. f_equal; lia.
    + rewrite tail_storage. cbn [map app verify_walk]. rewrite vet_storage by auto.
      destruct saw; [|specialize (Hs eq_refl); discriminate]. rewrite IH by discriminate. do 2 f_equal.
      unfold add_stats. cbn [ss_accounts ss_slots ss_codes map]. change (sumN (len c :: map len cs)) with (len c + sumN (map len cs)).
      f_equal. lia.
  - revert saw n Hs. induction H1 as [|c cs Hc _ IH]; intros saw n Hs.
    + rewrite tail_group. cbn [map app verify_walk vet]. rewrite IHg; [|discriminate|exact Hg]. do 2 f_equal.
      unfold add_stats. rewrite counts_cons. cbn [ss_accounts ss_slots ss_codes map]. change (sumN []) with 0.
      f_equal; [lia|lia|]. destruct (has_code (ar_code a)); lia.
    + rewrite tail_storage. cbn [map app verify_walk]. rewrite vet_storage by auto.
      destruct saw; [|specialize (Hs eq_refl); discriminate]. rewrite IH by discriminate. do 2 f_equal.
      unfold add_stats. cbn [ss_accounts ss_slots ss_codes map]. change (sumN (len c :: map len cs)) with (len c + sumN (map len cs)).
      f_equal. lia.
Qed.

Lemma add_stats_zero gs : add_stats (mk_sstats 0 0 0) [] gs = counts gs.
Proof.
  unfold add_stats. change (sumN (map len [])) with 0. destruct (counts gs) as [x y z]. cbn [ss_accounts ss_slots ss_codes].
  rewrite !N.add_0_l. auto.
Qed.
Lemma verify_spec E s k n : verify_pack E s = inl (k, n) <->
  exists m h hs gs f rest, pack_of E s m (h :: hs) gs f rest /\ bounded gs /\ k = me_count m /\ n = counts gs /\
    sh_root h = me_root m /\ sh_num h = me_num m /\ sv_hash E h = me_hash m /\ ss_accounts f = len gs.
Proof.
  unfold verify_pack. split.
  - destruct (open_pack E s) as [rd|e] eqn:Eo; [|discriminate]. apply open_spec in Eo as (m & bs & hs & r & Hf & Hl & Hc & -> & ->).
    cbn [rd_headers rd_meta rd_rest]. destruct hs as [|h hs]; [discriminate|].
    destruct (N.eqb_spec (sh_root h) (me_root m)) as [H1|]; [|discriminate]. cbn [negb].
    destruct (N.eqb_spec (sh_num h) (me_num m)) as [H2|]; [|discriminate].
    destruct (N.eqb_spec (sv_hash E h) (me_hash m)) as [H3|]; [|discriminate]. cbn [negb orb].
    destruct (verify_walk r false _) as [[n' f]|e] eqn:Ev; [|discriminate].
    apply verify_walk_spec in Ev as (cs & gs & rest & Hcs & _ & Hb & -> & ->). rewrite (Hcs eq_refl).
    destruct (N.eqb_spec (ss_accounts f) (ss_accounts (add_stats (mk_sstats 0 0 0) [] gs))) as [H4|]; [|discriminate].
    intros H. injection H as <- <-. exists m, h, hs, gs, f, rest.
    rewrite add_stats_zero in *. repeat split; auto. exists bs. auto.
  - intros (m & h & hs & gs & f & rest & (bs & Hf & Hl & Hc & ->) & Hb & -> & -> & H1 & H2 & H3 & H4).
    assert (Ho : open_pack E (Some (SMeta m) :: map (fun b => Some (SHeader b)) bs ++ map Some (body gs) ++ Some (SEnd f) :: rest)
      = inl (mk_sr m (h :: hs) (map Some (body gs) ++ Some (SEnd f) :: rest) None false)).
    { apply open_spec. exists m, bs, (h :: hs), (map Some (body gs) ++ Some (SEnd f) :: rest). auto. }
    rewrite Ho. cbn [rd_headers rd_meta rd_rest]. rewrite H1, H2, H3, !N.eqb_refl. cbn [negb orb].
    assert (Hv : verify_walk (map Some (body gs) ++ Some (SEnd f) :: rest) false (mk_sstats 0 0 0) = inl (counts gs, f)).
    { apply verify_walk_spec. exists [], gs, rest. split; [auto|]. split; [auto|]. split; [auto|]. split; [auto|]. symmetry. apply add_stats_zero. }
    rewrite Hv. rewrite H4. cbn [counts ss_accounts]. rewrite N.eqb_refl. auto.
Qed.

(* ---------- the two read paths ---------- *)
Lemma gather_spec s : forall acc slots o r,
  gather s acc = inl (slots, o, r) <->
  exists cs, Forall (fun c => len c <= 65536) cs /\ (forall c, o <> SStorage c) /\
    s = map (fun c => Some (SStorage c)) cs ++ Some o :: r /\ slots = acc ++ concat cs.
Proof.
  induction s as [|i s IH]; intros acc slots o r; cbn [gather].
  - split; [discriminate|]. intros (cs & _ & _ & H & _). destruct cs; discriminate.
  - destruct (vet i) as [x|e] eqn:Ev.
    + apply vet_inl in Ev as [-> Hb]. destruct x as [m|b|a|c|e].
      1,2,3,5: split; [intros H; injection H as <- <- <-; exists []; repeat split; auto; [intros c Hc; discriminate|rewrite app_nil_r; auto]|
        intros (cs & _ & Ho & H & ->); destruct cs as [|c cs]; [|discriminate]; cbn [map app] in H; injection H as <- <-; cbn [concat]; rewrite app_nil_r; auto].
      split.
      * intros H. apply IH in H as (cs & H1 & H2 & -> & ->). exists (c :: cs). repeat split; auto. cbn [concat]. apply app_assoc_reverse.
      * intros (cs & H1 & H2 & H & ->). destruct cs as [|c' cs].
        { cbn [map app] in H. injection H as <- <-. exfalso. eapply H2. eauto. }
        cbn [map app] in H. injection H as <- ->. apply IH. exists cs. inversion H1; subst. repeat split; auto. cbn [concat]. apply app_assoc.
    + split; [discriminate|]. intros (cs & H1 & H2 & H & _). destruct cs as [|c cs]; cbn [map app] in H; injection H as -> ->.
      * destruct o as [?|?|?|l|?]; cbn [vet] in Ev; try discriminate. exfalso. exact (H2 l eq_refl).
      * inversion H1; subst. rewrite vet_storage in Ev by auto. discriminate.
Qed.

(* a reader positioned in the account area *)
Definition rdr (m : smeta) (hs : list shdr) (s : stream) (p : option srec) : sreader := mk_sr m hs s p false.
Definition accounts_of (gs : list group) : list gacct := map (fun g => account_of (fst g) (concat (snd g))) gs.
Lemma map_some_tail cs gs r : map Some (tail_recs cs gs) ++ r = map (fun c => Some (SStorage c)) cs ++ map Some (body gs) ++ r.
Proof. unfold tail_recs. rewrite map_app, map_map, <- app_assoc. auto. Qed.

(* the head of what follows a group: an account or the footer *)
Lemma reads_body m hs f rest gs : bounded gs ->
  reads (rdr m hs (map Some (body gs) ++ Some (SEnd f) :: rest) None) (accounts_of gs) None.
Proof.
  (* with the first record possibly already in the lookahead buffer *)
  assert (H : bounded gs -> forall first s, map Some (body gs) ++ Some (SEnd f) :: rest = Some first :: s ->
     reads (rdr m hs s (Some first)) (accounts_of gs) None /\ reads (rdr m hs (Some first :: s) None) (accounts_of gs) None).
  { induction gs as [|[a cs] gs IH]; intros Hb first s Hs.
    - cbn in Hs. injection Hs as <- <-. split; eapply reads_end; cbn; eauto.
    - rewrite body_cons in Hs. cbn [map app] in Hs. injection Hs as <- <-. inversion Hb as [|? ? Hc Hb']; subst. cbn [snd] in Hc.
      assert (Hx : exists o r, map Some (body gs) ++ Some (SEnd f) :: rest = Some o :: r /\ forall c, o <> SStorage c).
      { destruct gs as [|[a' cs'] gs']; cbn [body map concat app]; [exists (SEnd f), rest; split; [auto|intros; discriminate]|].
        eexists (SAccount a'), _. cbn [group_recs fst snd app map]. split; [reflexivity|intros; discriminate]. }
      destruct Hx as (o & r & Ho & Hno). destruct (IH Hb' o r Ho) as [IH1 _].
      assert (Hg : gather (map Some (tail_recs cs gs) ++ Some (SEnd f) :: rest) [] = inl (concat cs, o, r)).
      { apply gather_spec. exists cs. repeat split; auto. rewrite map_some_tail, Ho. auto. }
      split; (eapply reads_acc; [|exact IH1]); unfold next_account, rdr, pull; cbn [rd_done rd_pending rd_rest set_rest vet]; rewrite Hg; auto. }
  intros Hb. destruct (map Some (body gs) ++ Some (SEnd f) :: rest) as [|i s] eqn:Es.
  - destruct (map Some (body gs)); discriminate.
  - destruct i as [first|]; [destruct (H Hb _ _ eq_refl) as [_ H2]; auto|].
    exfalso. destruct gs as [|[a cs] gs]; cbn in Es; discriminate.
Qed.

Lemma reads_sound m hs gs' : forall s p e, reads (rdr m hs s p) gs' e -> e = None -> (forall c, p <> Some (SStorage c)) ->
  exists gs f rest, bounded gs /\ gs' = accounts_of gs /\ (match p with Some r => [Some r] | None => [] end) ++ s = map Some (body gs) ++ Some (SEnd f) :: rest.
Proof.
  intros s p e H. remember (rdr m hs s p) as rd eqn:Hrd. revert s p Hrd.
  induction H as [rd rd' H|rd e rd' H|rd a rd' l e H Hr IH]; intros s p -> He Hp; [| discriminate|].
  - unfold next_account, rdr, pull in H. cbn [rd_done rd_pending rd_rest] in H.
    assert (Hx : exists f r, (match p with Some r => [Some r] | None => [] end) ++ s = Some (SEnd f) :: r).
    { destruct p as [[x|x|x|x|x]|]; try discriminate; [|eexists _, _; cbn; eauto|].
      - destruct (gather _ _) as [[[? ?] ?]|[? ?]]; discriminate.
      - destruct s as [|i s]; [discriminate|]. destruct (vet i) as [r|err] eqn:Ev; [|discriminate]. apply vet_inl in Ev as [-> _].
        destruct r; try discriminate; [|eexists _, _; cbn; eauto]. destruct (gather _ _) as [[[? ?] ?]|[? ?]]; discriminate. }
    destruct Hx as (f & r & Hx). exists [], f, r. split; [constructor|]. split; auto.
  - unfold next_account, rdr, pull in H. cbn [rd_done rd_pending rd_rest] in H.
    assert (Hx : exists ar s' slots o r, (match p with Some r => [Some r] | None => [] end) ++ s = Some (SAccount ar) :: s' /\
      gather s' [] = inl (slots, o, r) /\ a = account_of ar slots /\ rd' = rdr m hs r (Some o)).
    { destruct p as [[x|x|x|x|x]|]; try discriminate.
      - destruct (gather _ _) as [[[slots o] r]|[? ?]] eqn:Eg; [|discriminate]. injection H as <- <-.
        cbn [rd_rest set_rest] in Eg. exists x, s, slots, o, r. auto.
      - destruct s as [|i s]; [discriminate|]. destruct (vet i) as [y|err] eqn:Ev; [|discriminate]. apply vet_inl in Ev as [-> _].
        destruct y; try discriminate. destruct (gather _ _) as [[[slots o] r]|[? ?]] eqn:Eg; [|discriminate]. injection H as <- <-.
        cbn [rd_rest set_rest] in Eg. eexists _, s, slots, o, r. split; [reflexivity|]. auto. }
    destruct Hx as (ar & s' & slots & o & r & H1 & H2 & -> & ->). apply gather_spec in H2 as (cs & C1 & C2 & -> & ->).
    destruct (IH _ _ eq_refl He) as (gs & f & rest & G1 & -> & G3).
    { intros c Hc. injection Hc as ->. eapply C2. eauto. }
    exists ((ar, cs) :: gs), f, rest. split; [constructor; auto|]. split; [auto|]. rewrite H1, body_cons. cbn [map app].
    rewrite map_some_tail, <- G3. auto.
Qed.

Definition entries_of (gs : list group) : list sentry := concat (map group_entries gs).
Lemma entries_tail m hs f rest gs : bounded gs -> forall cs, Forall (fun c => len c <= 65536) cs ->
  reads_entries (rdr m hs (map Some (tail_recs cs gs) ++ Some (SEnd f) :: rest) None) (map EStorage cs ++ entries_of gs) None.
Proof.
  induction gs as [|[a gcs] gs IH]; intros Hb cs Hc; induction Hc as [|c cs H1 H2 IHc].
  - cbn. eapply rde_end. cbn. eauto.
  - rewrite tail_storage. cbn [map app]. eapply rde_item; [|exact IHc].
    unfold next_entry, rdr, pull. cbn [rd_done rd_pending rd_rest]. rewrite vet_storage by auto. auto.
  - inversion Hb as [|? ? Hg Hb']; subst. cbn [snd] in Hg. rewrite tail_group. cbn [map app entries_of concat group_entries fst snd].
    eapply rde_item; [|exact (IH Hb' _ Hg)]. reflexivity.
  - rewrite tail_storage. cbn [map app]. eapply rde_item; [|exact IHc].
    unfold next_entry, rdr, pull. cbn [rd_done rd_pending rd_rest]. rewrite vet_storage by auto. auto.
Qed.
Lemma reads_entries_det rd l e : reads_entries rd l e -> forall l' e', reads_entries rd l' e' -> l = l' /\ e = e'.
Proof.
  induction 1 as [rd rd' H|rd e rd' H|rd x rd' l e H Hr IH]; intros l' e' H'; inversion H'; subst; try congruence; auto.
  - rewrite H in H0. injection H0 as -> ->. auto.
  - rewrite H in H0. injection H0 as -> ->. destruct (IH _ _ H1). subst. auto.
Qed.
Lemma reads_det rd l e : reads rd l e -> forall l' e', reads rd l' e' -> l = l' /\ e = e'.
Proof.
  induction 1 as [rd rd' H|rd e rd' H|rd x rd' l e H Hr IH]; intros l' e' H'; inversion H'; subst; try congruence; auto.
  - rewrite H in H0. injection H0 as -> ->. auto.
  - rewrite H in H0. injection H0 as -> ->. destruct (IH _ _ H1). subst. auto.
Qed.
