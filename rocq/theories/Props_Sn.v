(** C61: execution-state snapshots: export, pack, verify, restore, db load-state. *)
From Verif Require Import Util EpochModel EpochSpec GasModel GasProofs SnModel SnSpec SnMaps SnPack SnWrite SnImport SnRestore SnLoad SnMore SnExample.
Local Open Scope N_scope.

(** ---------- the pack ---------- *)
(** Exporting a pinned state writes a pack of the expected shape that says exactly that state: it verifies with the true
    counts, opens with the given headers, and reads back account by account as the state; every account's slots are cut into
    full chunks. *)
Theorem C61_export_exact E v st root h hs :
  senv_sound E -> view_shows v st -> wf_state st -> codes_for E (vw_codes v) st -> sh_root h = root ->
  len (h :: hs) <= 4096 -> N.min (sh_num h) 256 <= len (h :: hs) ->
  exists recs gs,
    export_state_pack E v root (h :: hs) = inl (recs, counts gs) /\
    pack_of E (map Some recs) (mk_smeta root (sh_num h) (sv_hash E h) (len (h :: hs))) (h :: hs) gs (counts gs) [] /\
    Forall2 says (map (described E (vw_codes v)) st) gs /\
    verify_pack E (map Some recs) = inl (len (h :: hs), counts gs) /\
    ss_accounts (counts gs) = len st /\ ss_slots (counts gs) = sumN (map (fun e => len (snd (snd e))) st) /\
    exists rd, open_pack E (map Some recs) = inl rd /\ rd_headers rd = h :: hs /\ me_root (rd_meta rd) = root /\
      me_num (rd_meta rd) = sh_num h /\ me_hash (rd_meta rd) = sv_hash E h /\ reads rd (map (described E (vw_codes v)) st) None.
Proof.
  intros Hs Hv Hw Hc Hr H1 H2. destruct (export_spec E v st root h hs Hv Hw Hc Hr) as (gs & He & Hsay).
  assert (Hmod : len (h :: hs) mod 2 ^ 32 = len (h :: hs)) by (apply N.mod_small; change (2 ^ 32) with 4294967296; lia).
  rewrite Hmod in He. set (m := mk_smeta _ _ _ _) in *. eexists. exists gs. split; [exact He|].
  assert (Hlen1 : 1 <= len (h :: hs)) by (rewrite len_cons; lia).
  assert (Hp : pack_of E (map Some ((SMeta m :: map (fun x => SHeader (sv_enc E x)) (h :: hs)) ++ body gs ++ [SEnd (counts gs)])) m (h :: hs) gs (counts gs) []).
  { exists (map (sv_enc E) (h :: hs)). split; [|split; [auto|split; [split; auto|]]].
    - generalize (h :: hs). clear - Hs. induction l as [|x l IH]; cbn [map]; constructor; auto. apply (so_rlp _ Hs).
    - rewrite map_app. cbn [map app]. rewrite !map_app, !map_map. auto. }
  split; [exact Hp|]. split; [auto|]. pose proof (says_bounded _ _ Hsay) as Hb. split; [|split; [|split]].
  - apply verify_spec. exists m, h, hs, gs, (counts gs), []. repeat split; auto.
  - unfold counts, len. cbn [ss_accounts]. rewrite <- (Forall2_length _ _ _ Hsay), map_length. auto.
  - clear - Hsay. remember (map (described E (vw_codes v)) st) as l eqn:Hl. revert st Hl.
    induction Hsay as [|a g l gs [_ Hg] _ IH]; intros [|e st] Hl; try discriminate; auto. cbn [map] in Hl. injection Hl as -> Hl.
    destruct g as [ar cs]. rewrite counts_cons. cbn [ss_slots map]. rewrite (IH _ Hl).
    change (sumN (len (snd (snd e)) :: map (fun e => len (snd (snd e))) st)) with (len (snd (snd e)) + sumN (map (fun e => len (snd (snd e))) st)).
    f_equal. assert (Hss : concat cs = snd (snd e)).
    { destruct Hg as [Hg _]. cbn [snd] in Hg. rewrite Hg. unfold described. cbn [ga_storage]. destruct (snd (snd e)); auto. }
    rewrite <- Hss. clear. induction cs as [|c cs IH]; auto. cbn [concat map]. rewrite len_app, <- IH. auto.
  - destruct Hp as (bs & P1 & P2 & P3 & P4). eexists. split; [apply open_spec; exists m, bs, (h :: hs), (map Some (body gs) ++ [Some (SEnd (counts gs))]); eauto|].
    unfold m. cbn [rd_headers rd_meta me_root me_num me_hash]. split; [auto|]. split; [auto|]. split; [auto|]. split; [auto|].
    rewrite <- (says_accounts E (vw_codes v) st gs Hw Hsay). apply (reads_body m (h :: hs) (counts gs) [] gs Hb).
Qed.

(** Verification accepts exactly the packs of the right shape whose first header is the declared block with the declared
    root, whose chunks are within the bound and whose footer has the number of accounts; and it reports the true counts. *)
Theorem C61_verify_exact E s k n : verify_pack E s = inl (k, n) <->
  exists m h hs gs f rest, pack_of E s m (h :: hs) gs f rest /\ bounded gs /\ k = me_count m /\ n = counts gs /\
    sh_root h = me_root m /\ sh_num h = me_num m /\ sv_hash E h = me_hash m /\ ss_accounts f = len gs.
Proof. apply verify_spec. Qed.

(** The whole-account reader and the entry reader hand out the same accounts and the same slots, each to the end. *)
Theorem C61_read_paths E s m hs gs f rest rd : pack_of E s m hs gs f rest -> bounded gs -> open_pack E s = inl rd ->
  (forall l e, reads rd l e <-> l = map (fun g => account_of (fst g) (concat (snd g))) gs /\ e = None) /\
  (forall l e, reads_entries rd l e <-> l = concat (map group_entries gs) /\ e = None).
Proof.
  intros (bs & P1 & P2 & P3 & ->) Hb Ho.
  assert (Ho' : open_pack E (Some (SMeta m) :: map (fun b => Some (SHeader b)) bs ++ map Some (body gs) ++ Some (SEnd f) :: rest) =
     inl (rdr m hs (map Some (body gs) ++ Some (SEnd f) :: rest) None)) by (apply open_spec; exists m, bs, hs, (map Some (body gs) ++ Some (SEnd f) :: rest); auto).
  rewrite Ho' in Ho. injection Ho as <-. pose proof (reads_body m hs f rest gs Hb) as R1.
  pose proof (entries_tail m hs f rest gs Hb [] (Forall_nil _)) as R2. cbn [map app tail_recs] in R2. unfold tail_recs in R2. cbn [map app] in R2.
  split; intros l e; split.
  - intros R. apply (reads_det _ _ _ R _ _ R1).
  - intros [-> ->]. exact R1.
  - intros R. apply (reads_entries_det _ _ _ R _ _ R2).
  - intros [-> ->]. exact R2.
Qed.

(** A reader that hands out some whole accounts and then the remaining entries loses and repeats nothing. *)
Theorem C61_readers_mixed E s m hs gs f rest rd l rd' : pack_of E s m hs gs f rest -> bounded gs -> open_pack E s = inl rd ->
  after_accounts rd l rd' ->
  l = firstn (length l) (map (fun g => account_of (fst g) (concat (snd g))) gs) /\
  forall l' e, reads_entries rd' l' e <-> l' = concat (map group_entries (skipn (length l) gs)) /\ e = None.
Proof.
  intros (bs & P1 & P2 & P3 & ->) Hb Ho Ha.
  assert (Ho' : open_pack E (Some (SMeta m) :: map (fun b => Some (SHeader b)) bs ++ map Some (body gs) ++ Some (SEnd f) :: rest) =
     inl (rdr m hs (map Some (body gs) ++ Some (SEnd f) :: rest) None)) by (apply open_spec; exists m, bs, hs, (map Some (body gs) ++ Some (SEnd f) :: rest); auto).
  rewrite Ho' in Ho. injection Ho as <-.
  destruct (mixed m hs f rest (length l) gs _ rd' l Hb (or_introl eq_refl) Ha eq_refl) as [H1 H2]. split; [exact H1|].
  intros l' e. split; [intros R; apply (reads_entries_det _ _ _ R _ _ H2)|intros [-> ->]; exact H2].
Qed.

(** A state with an account whose code is nowhere in the database is not exported. *)
Theorem C61_export_missing_code E v st root headers a acc ss h : view_shows v st -> wf_state st ->
  bm_lookup a st = Some (acc, ss) -> ac_code acc = Some h -> h <> sv_code E [] -> bm_lookup h (vw_codes v) = None ->
  exists e, export_state_pack E v root headers = inr e.
Proof.
  intros (V1 & V2 & _) [Hw _] Hl Hc Hh Hm. unfold export_state_pack. destruct (w_create E root headers) as [w|e]; [|eauto]. rewrite V1.
  destruct (export_missing E (vw_codes v) st (vw_rows v) w Hw V2) as [e ->]; [|eauto]. exists a, acc, ss, h. split; [|auto].
  clear - Hl. induction st as [|[k x] t IH]; cbn [bm_lookup] in Hl; [discriminate Hl|].
  destruct (N.eqb_spec a k) as [E|E]; [left; subst; injection Hl as ->; reflexivity|right; auto].
Qed.

(** Headers of block 0 in a pack's header window change nothing about what it restores to. *)
Theorem C61_genesis_header_ignored E g d s s' rd rd' : open_pack E s = inl rd -> open_pack E s' = inl rd' ->
  me_root (rd_meta rd) = me_root (rd_meta rd') -> me_num (rd_meta rd) = me_num (rd_meta rd') -> me_hash (rd_meta rd) = me_hash (rd_meta rd') ->
  rd_rest rd = rd_rest rd' ->
  filter (fun h => negb (sh_num h =? 0)) (rd_headers rd) = filter (fun h => negb (sh_num h =? 0)) (rd_headers rd') ->
  restore_pack E g d s = restore_pack E g d s'.
Proof.
  intros O O' E1 E2 E3 E4 E5. unfold restore_pack. rewrite O, O', E2, E3, (window_filter E (rd_headers rd)), E5, <- (window_filter E).
  assert (I : forall d, import_state E d rd = import_state E d rd').
  { intros x. unfold import_state, rd_fuel. rewrite E1, E2, E4. apply open_spec in O, O'. destruct O as (m & bs & hs & r & _ & _ & _ & _ & ->).
    destruct O' as (m' & bs' & hs' & r' & _ & _ & _ & _ & ->). cbn [rd_rest] in *. subst r'. destruct (dd_db x); [|reflexivity].
    change (mk_sr m hs r None false) with (rdr m hs r None). change (mk_sr m' hs' r None false) with (rdr m' hs' r None).
    rewrite (import_loop_reader E _ m hs m' hs'). reflexivity. }
  destruct (restorer_open E g d) as [t1 [d1|e]]; [|reflexivity]. destruct (import_chain_scaffold _ _ _ _ _) as [t2 [d2|e]]; [|reflexivity].
  rewrite I. reflexivity.
Qed.

(** A pack that stops before its footer, wherever it was cut, is refused by verification and by the import, and neither
    reader mistakes it for a shorter pack. *)
Lemma no_end s : (forall f, ~ In (Some (SEnd f)) s) -> forall gs f rest cs, s <> map Some (tail_recs cs gs) ++ Some (SEnd f) :: rest.
Proof. intros H gs f rest cs ->. apply (H f). apply in_or_app. right. left. auto. Qed.
Theorem C61_truncated E s k recs m hs gs : recs = SMeta m :: map (fun h => SHeader (sv_enc E h)) hs ++ body gs ++ [SEnd (counts gs)] ->
  (k < length recs)%nat -> s = firstn k (map Some recs) ->
  (exists e, verify_pack E s = inr e) /\
  forall rd, open_pack E s = inl rd ->
    (forall l, ~ reads rd l None) /\ (forall d, exists e, import_state E d rd = ([], inr e)).
Proof.
  intros Hrecs Hk ->. set (s := firstn k (map Some recs)).
  assert (Hno : forall f, ~ In (Some (SEnd f)) s).
  { intros f Hi. set (front := SMeta m :: map (fun h => SHeader (sv_enc E h)) hs ++ body gs).
    assert (Hf : recs = front ++ [SEnd (counts gs)]) by (rewrite Hrecs; unfold front; cbn [app]; rewrite <- app_assoc; auto).
    assert (Hs : exists t, map Some front = s ++ t).
    { unfold s. rewrite Hf, map_app, firstn_app. rewrite Hf, app_length in Hk. cbn [length] in Hk. rewrite map_length.
      replace (k - length front)%nat with O by lia. cbn [firstn]. rewrite app_nil_r. exists (skipn k (map Some front)). symmetry. apply firstn_skipn. }
    destruct Hs as [t Hs]. assert (Hin : In (Some (SEnd f)) (map Some front)) by (rewrite Hs; apply in_or_app; auto).
    apply in_map_iff in Hin as (x & Hx & Hin). injection Hx as ->. unfold front in Hin. destruct Hin as [Hin|Hin]; [discriminate|].
    apply in_app_or in Hin as [Hin|Hin].
    - apply in_map_iff in Hin as (y & Hy & _). discriminate.
    - unfold body in Hin. apply in_concat in Hin as (l & Hl & Hin). apply in_map_iff in Hl as (g & <- & _).
      destruct Hin as [Hin|Hin]; [discriminate|]. apply in_map_iff in Hin as (y & Hy & _). discriminate. }
  clearbody s. split.
  - destruct (verify_pack E s) as [[a b]|e] eqn:Ev; [|eauto]. exfalso. apply verify_spec in Ev as (m' & h & hs' & gs' & f & rest & (bs & _ & _ & _ & ->) & _).
    apply (Hno f). right. apply in_or_app. right. apply in_or_app. right. left. auto.
  - intros rd Ho. apply open_spec in Ho as (m' & bs & hs' & r & _ & _ & _ & -> & ->).
    assert (Hr : forall f, ~ In (Some (SEnd f)) r) by (intros f Hi; apply (Hno f); right; apply in_or_app; auto). split.
    + intros l R. destruct (reads_sound m' hs' l r None None R eq_refl) as (gs' & f & rest & _ & _ & Hx); [intros c Hc; discriminate|].
      cbn [app] in Hx. apply (no_end r Hr gs' f rest [] Hx).
    + intros d. unfold import_state. destruct (dd_db d) as [db|]; [|eauto].
      destruct (import_loop E _ _ None None (b_tabs db)) as [t|e] eqn:El; [|eauto]. exfalso.
      apply (import_shape E _ r m' hs') in El; [|apply Nat.lt_succ_diag_r || apply Nat.lt_lt_succ_r, Nat.lt_succ_diag_r].
      destruct El as (cs & gs' & f & rest & _ & _ & _ & _ & _ & Hx). apply (no_end r Hr gs' f rest cs Hx).
Qed.

(** The import takes a pack only with its accounts in strictly ascending address order, its chunks within the bound and its
    footer present. *)
Theorem C61_import_shape E d rd tr d' root m hs s : rd = mk_sr m hs s None false -> import_state E d rd = (tr, inl (d', root)) ->
  exists gs f rest, s = map Some (body gs) ++ Some (SEnd f) :: rest /\ bounded gs /\ StronglySorted N.lt (map (fun g => ar_addr (fst g)) gs).
Proof.
  intros -> H. unfold import_state in H. destruct (dd_db d) as [db|]; [|discriminate].
  destruct (import_loop E _ _ None None (b_tabs db)) as [t|e] eqn:El; [|discriminate].
  apply (import_shape E _ s m hs) in El; [|apply Nat.lt_lt_succ_r, Nat.lt_succ_diag_r].
  destruct El as (cs & gs' & f & rest & Hcs & _ & A2 & A3 & _ & ->). rewrite (Hcs eq_refl). exists gs', f, rest. auto.
Qed.

(** ---------- restoring ---------- *)
(** Whatever bytes the pack holds: if its declared block is a block of the chain and the restore reports success, the datadir
    holds exactly the chain's state at that block (with "no code" in its first spelling), the chain's last 256 headers, the
    block number of each, the finalized and safe markers and the floor; and the next epoch's entry read succeeds on it. *)
Theorem C61_restore_sound E c g d s b h tr d' root :
  senv_sound E -> chain_ok E c -> bm_sorted (tb_codes (g_tabs g)) -> startable E g d -> names_block E c s b h ->
  restore_pack E g d s = (tr, inl (d', root)) ->
  restored E c g b d' /\ root = sh_root h /\ check_ready E (norm E (ch_state c b)) b = inl tt /\ last tr d = d'.
Proof.
  intros Hs Hc Hg Hst Hn Hr. destruct (restore_run E c g Hs Hc Hg d s b h tr _ Hst Hn Hr) as (_ & _ & H).
  destruct (H _ _ eq_refl) as (H1 & H2 & H3 & _ & H5). auto.
Qed.

(** What a node exports for a block past genesis, another node restores: an export that reports a pack was taken from a view
    in which that block was the tip, and the pack restores into any fresh or genesis-only datadir. *)
Theorem C61_round_trip E c g d num hash views recs sts :
  senv_sound E -> chain_ok E c -> bm_sorted (tb_codes (g_tabs g)) -> startable E g d -> 0 < num ->
  (forall v, In v views -> verify_tip v num hash = true -> view_shows v (ch_state c num) /\
     codes_for E (vw_codes v) (ch_state c num) /\ forall x cd, bm_lookup x (vw_codes v) = Some cd -> sv_codeok E cd = true) ->
  export_once E c num hash views = inl (Some (recs, sts)) ->
  exists anchor tr d', ch_hdr c num = Some anchor /\ names_block E c (map Some recs) num anchor /\
    restore_pack E g d (map Some recs) = (tr, inl (d', sh_root anchor)) /\ restored E c g num d'.
Proof.
  intros Hs Hc Hg Hst Hn Hv He. destruct (export_once_inv _ _ _ _ _ _ _ He) as (v & anchor & t & V1 & V2 & V3 & V4 & V5 & V6).
  assert (Hin : In v views) by (rewrite <- (firstn_skipn 8 views); apply in_or_app; auto).
  destruct (Hv v Hin V2) as (W1 & W2 & W3). rewrite (co_num _ _ Hc _ _ V3) in V5.
  destruct (round_trip E c g Hs Hc Hg d num anchor v t recs sts Hst Hn V3 V4 W1 W2 W3 V5 V6) as (R1 & tr & d' & R2).
  exists anchor, tr, d'. repeat split; auto. all: eapply C61_restore_sound; eauto.
Qed.

(** An export is taken only from a view in which the requested hash is block [num] and the database's last block, in at most
    eight attempts, and only at an epoch-closing block whose next epoch can be entered. *)
Theorem C61_export_at_tip E c num hash views p : export_once E c num hash views = inl (Some p) ->
  exists v, In v (firstn 8 views) /\ bm_lookup hash (vw_nums v) = Some num /\ vw_last v = Some num /\
    exists anchor, ch_hdr c num = Some anchor /\ check_ready E (ch_state c num) (sh_num anchor) = inl tt.
Proof.
  destruct p as [recs sts]. intros H. destruct (export_once_inv _ _ _ _ _ _ _ H) as (v & anchor & t & V1 & V2 & V3 & V4 & V5 & _).
  exists v. split; auto. unfold verify_tip in V2. destruct (bm_lookup hash (vw_nums v)) as [n|]; [|discriminate].
  apply andb_prop in V2 as [A B]. apply N.eqb_eq in A. subst n. destruct (vw_last v) as [l|]; [|discriminate]. apply N.eqb_eq in B. subst l. eauto 6.
Qed.

(** A state that passed the readiness check lets the entered epoch read every worker's fee. *)
Theorem C61_ready_enters E st b n es acc : check_ready E st b = inl tt -> sv_fees E st = Some (n, es) -> n = N.of_nat (length es) ->
  exists acc', enter_epoch acc es = Some acc'.
Proof.
  unfold check_ready. destruct (sv_epoch E st); [|discriminate]. destruct (negb _); [discriminate|]. intros H Hf Hn. rewrite Hf in H.
  destruct (N.eqb_spec n 0) as [|H0]; [discriminate|]. destruct (forallb fee_ok es) eqn:Ea; [|discriminate].
  unfold enter_epoch. destruct es as [|e es']; [cbn in Hn; lia|]. set (es := e :: es') in *.
  assert (Hfees : forall l, forallb fee_ok l = true -> exists fs, entry_fees l = Some fs /\ length fs = length l).
  { induction l as [|x l IH]; cbn [forallb entry_fees]; intros Hl; [eexists; split; [reflexivity|auto]|].
    apply andb_prop in Hl as [L1 L2]. destruct (IH L2) as (fs & -> & Hlen). unfold fee_ok in L1. destruct (entry_fee x); [|discriminate].
    eexists. split; [reflexivity|]. cbn [length]. lia. }
  destruct (Hfees es Ea) as (fs & -> & Hlen).
  destruct (apply_fees_spec fs (set_num_workers (length es) acc) 0) as (acc' & Ha & _); [|eauto].
  rewrite set_num_workers_resize, resize_length. lia.
Qed.

(** ---------- db load-state ---------- *)
(** With fewer than a third of each committee faulty: if the command reports success, then the certified record of the
    bundle's last epoch, an epoch past the first, names a block of the chain, that block's state is what the datadir holds,
    its state root is reported, and the consensus side ends at that epoch. *)
Theorem C61_load_state E c g EE signed faulty genesis truth d b co tr fs root :
  senv_sound E -> chain_ok E c -> bm_sorted (tb_codes (g_tabs g)) -> eenv_sound EE signed ->
  true_chain EE signed faulty genesis truth -> certifies E c truth -> startable E g d ->
  load_state E EE genesis g d b co = (tr, inl (fs, root)) ->
  exists ep h, ep <> O /\ fs = er_state (truth ep) /\ fs = sv_fs E (sh_num h) (sv_hash E h) /\ ch_hdr c (sh_num h) = Some h /\
    root = sh_root h /\ restored E c g (sh_num h) (last tr d) /\ dd_cons (last tr d) = Some (N.of_nat ep).
Proof.
  intros Hs Hc Hg He Ht Hce Hst H.
  destruct (load_run E c g EE signed faulty genesis truth Hs Hc Hg He Ht Hce d b co tr _ Hst H) as [(e & _ & _ & X)|(rec & h & P1 & P2 & P3 & P4 & P5 & _ & P7 & _)]; [discriminate|].
  destruct (P7 _ _ eq_refl) as (Q1 & Q2 & Q3 & _ & Q5). destruct P4 as (rd & _ & _ & _ & Hh). subst fs.
  exists (er_epoch rec), h. rewrite <- P2. auto 10.
Qed.

(** A crash at any point of the command on a datadir without chain data leaves chain data past genesis only under the floor
    of the certified block, and tables that are genesis's, empty, or exactly that block's state; a directory left with chain
    data past genesis is refused by the next attempt, unchanged. *)
Theorem C61_crash E c g EE signed faulty genesis truth d b co tr r :
  senv_sound E -> chain_ok E c -> bm_sorted (tb_codes (g_tabs g)) -> eenv_sound EE signed ->
  true_chain EE signed faulty genesis truth -> certifies E c truth -> fresh d ->
  load_state E EE genesis g d b co = (tr, r) ->
  exists h, (tr <> [] -> ch_hdr c (sh_num h) = Some h) /\ forall d', In d' tr -> durable_ok E c g (sh_num h) d' /\
    (0 < tip d' -> restorer_open E g d' = ([], inr NonEmptyDatadir) \/ restorer_open E g d' = ([], inr GenesisMismatch)).
Proof.
  intros Hs Hc Hg He Ht Hce Hf H.
  destruct (load_run E c g EE signed faulty genesis truth Hs Hc Hg He Ht Hce d b co tr _ (or_introl Hf) H) as [(e & _ & -> & _)|(rec & h & P1 & P2 & P3 & P4 & P5 & P6 & _)].
  - exists (mk_shdr 0 0 0 0). split; [congruence|]. intros d' [].
  - exists h. split; [intros _; destruct P4 as (rd & _ & _ & _ & Hh); auto|]. intros d' Hd. specialize (P6 Hf). rewrite Forall_forall in P6. split; auto.
    intros Htip. unfold restorer_open, env_new. unfold tip in Htip. destruct (dd_sf d') as [l|] eqn:Es; [|cbn in Htip; lia].
    destruct (dd_db d') as [db|]; [|auto]. destruct l as [|[x y] l]; [auto|]. destruct (y =? _); [|auto].
    assert (Hp : (0 <? tip d') = true) by (unfold tip; rewrite Es; apply N.ltb_lt; auto). rewrite Hp. auto.
Qed.

(** A refused or failed command on an empty datadir leaves it empty. *)
Theorem C61_failed_leaves_nothing E c g EE signed faulty genesis truth b co tr e :
  senv_sound E -> chain_ok E c -> bm_sorted (tb_codes (g_tabs g)) -> eenv_sound EE signed ->
  true_chain EE signed faulty genesis truth -> certifies E c truth ->
  let d := mk_sdir None None None None in
  load_state E EE genesis g d b co = (tr, inr e) -> last tr d = d.
Proof.
  intros Hs Hc Hg He Ht Hce d H.
  destruct (load_run E c g EE signed faulty genesis truth Hs Hc Hg He Ht Hce d b co tr _ (or_introl (conj eq_refl eq_refl)) H)
    as [(e' & _ & -> & _)|(rec & h & _ & _ & _ & _ & _ & _ & _ & P8)]; [auto|].
  destruct (P8 _ eq_refl) as (A1 & A2 & A3 & A4). specialize (A2 eq_refl). specialize (A3 eq_refl). specialize (A4 eq_refl).
  unfold d. destruct (last tr d) as [m db sf cs] eqn:El. unfold d in El. cbn in *. subst. auto.
Qed.

(** A datadir with chain data past genesis is refused whatever the bundle, and at no point is its chain data touched. *)
Theorem C61_existing_untouched E EE genesis g d b co tr r : 0 < tip d -> load_state E EE genesis g d b co = (tr, r) ->
  (exists e, r = inr e) /\ forall d', In d' tr -> dd_db d' = dd_db d /\ dd_sf d' = dd_sf d /\ dd_cons d' = dd_cons d.
Proof.
  intros Hp H. destruct (load_existing _ _ _ _ _ _ _ _ _ Hp H) as [A B]. split; auto. rewrite Forall_forall in B. auto.
Qed.

(** ---------- reads ---------- *)
(** On a restored datadir the snapshot block reads as the chain's state; with the floor every older block is refused, and
    without it every older block of the window would silently read as the empty state. *)
Theorem C61_reads E c g b d h : senv_sound E -> chain_ok E c -> restored E c g b d -> ch_hdr c b = Some h -> b <> 0 ->
  read_only_state (dd_marker d) d b (sv_hash E h) = inl (norm E (ch_state c b)) /\
  forall n hn, n < b -> ch_hdr c n = Some hn ->
    read_only_state (dd_marker d) d n (sv_hash E hn) = inr BelowFloor /\
    (n <> 0 -> b < n + 256 -> read_only_state None d n (sv_hash E hn) = inl []).
Proof.
  intros Hs Hc [R1 R2 (db & D1 & D2 & _ & _ & _ & _ & D7) R4 R5] Hh Hb. split.
  - unfold read_only_state. rewrite R2, N.ltb_irrefl. unfold provider_state. rewrite D1, (D7 b h); auto; [|lia|lia]. rewrite R1, N.eqb_refl, D2. auto.
  - intros n hn Hn Hhn. split.
    + unfold read_only_state. rewrite R2. destruct (N.ltb_spec n b); [auto|lia].
    + intros N0 N1. unfold read_only_state, provider_state. rewrite D1, (D7 n hn); auto; [|lia]. rewrite R1. destruct (N.eqb_spec n b); [lia|auto].
Qed.

(** ---------- limits ---------- *)
(** Repeating the command on a restored datadir is refused, but the refusal's clean-up removes the floor of the datadir that
    was there: afterwards older blocks silently read as the empty state. *)
Theorem C61_floor_survives_refusal_refuted E c g EE genesis b d bu rec co : senv_sound E -> chain_ok E c ->
  restored E c g b d -> b <> 0 -> preflight E EE genesis bu = inl rec ->
  exists tr e, load_state E EE genesis g d bu co = (tr, inr e) /\ let d' := last tr d in
    dd_marker d' = None /\ dd_db d' = dd_db d /\
    forall n hn, n <> 0 -> n < b -> b < n + 256 -> ch_hdr c n = Some hn ->
      read_only_state (dd_marker d) d n (sv_hash E hn) = inr BelowFloor /\ read_only_state (dd_marker d') d' n (sv_hash E hn) = inl [].
Proof.
  intros Hs Hc Hr Hb Hp. assert (Htip : 0 < tip d) by (rewrite (re_tip _ _ _ _ _ Hr); lia).
  destruct (load_state E EE genesis g d bu co) as [tr r] eqn:El. destruct (load_existing _ _ _ _ _ _ _ _ _ Htip El) as [[e ->] Hall].
  exists tr, e. split; auto. intros d'. unfold load_state in El. rewrite Hp in El.
  destruct (restore_pack E g d (bu_state bu)) as [t rr] eqn:Err. destruct (restore_existing _ _ _ _ _ _ Htip Err) as [-> [e' ->]].
  injection El as <- <-.
  assert (Hne : clean d d <> []) by (unfold clean; discriminate).
  assert (Hl : dd_marker d' = None) by (unfold d'; cbn [app last]; rewrite clean_last; auto).
  assert (Hin : In d' (clean d d)).
  { unfold d'. cbn [app]. destruct (exists_last Hne) as (l & z & Hz). change (last [] d) with d. rewrite Hz. rewrite last_last. apply in_or_app. right. left. auto. }
  rewrite Forall_forall in Hall. destruct (Hall _ Hin) as (H1 & H2 & H3). split; [auto|]. split; [auto|].
  intros n hn N0 N1 N2 N3.
  destruct Hr as [R1 R2 (db & D1 & D2 & _ & _ & _ & _ & D7) R4 R5]. split.
  - unfold read_only_state. rewrite R2. destruct (N.ltb_spec n b); [auto|lia].
  - rewrite Hl. unfold read_only_state, provider_state. rewrite H1, D1, (D7 n hn); auto; [|lia]. unfold tip. rewrite H2. fold (tip d). rewrite R1.
    destruct (N.eqb_spec n b); [lia|auto].
Qed.
(** Verification looks at neither the footer's slot and code counts nor anything after the footer. *)
Theorem C61_footer_unchecked_refuted E m h hs gs x y rest s : pack_of E s m (h :: hs) gs (mk_sstats (len gs) x y) rest -> bounded gs ->
  sh_root h = me_root m -> sh_num h = me_num m -> sv_hash E h = me_hash m -> verify_pack E s = inl (me_count m, counts gs).
Proof. intros. apply verify_spec. exists m, h, hs, gs, (mk_sstats (len gs) x y), rest. auto 10. Qed.
(** ... nor at the order of the accounts, which the import requires: a pack can verify and yet restore nowhere. *)
Theorem C61_verified_restores_refuted E s m h hs gs f rest : pack_of E s m (h :: hs) gs f rest -> bounded gs ->
  sh_root h = me_root m -> sh_num h = me_num m -> sv_hash E h = me_hash m -> ss_accounts f = len gs ->
  ~ StronglySorted N.lt (map (fun g => ar_addr (fst g)) gs) ->
  verify_pack E s = inl (me_count m, counts gs) /\
  forall g d tr r, restore_pack E g d s = (tr, r) -> exists e, r = inr e.
Proof.
  intros Hp Hb H1 H2 H3 H4 Hns. split; [apply verify_spec; exists m, h, hs, gs, f, rest; auto 10|].
  intros g d tr r H. destruct r as [[d' root]|e]; [|eauto]. exfalso. unfold restore_pack in H.
  destruct (open_pack E s) as [rd|] eqn:Ho; [|discriminate].
  destruct (restorer_open E g d) as [t1 [d1|]]; [|discriminate].
  destruct (import_chain_scaffold E d1 _ _ _) as [t2 [d2|]]; [|discriminate].
  destruct (import_state E d2 rd) as [t3 [[d3 root3]|]] eqn:Hi; [|discriminate].
  destruct (C61_read_paths E s m (h :: hs) gs f rest rd Hp Hb Ho) as [R _].
  pose proof Ho as Ho'. apply open_spec in Ho' as (m' & bs & hs' & r & _ & _ & _ & -> & ->).
  destruct (C61_import_shape E d2 _ t3 d3 root3 m' hs' r eq_refl Hi) as (gs' & f' & rest' & -> & Hb' & Hs').
  pose proof (reads_body m' hs' f' rest' gs' Hb') as R'. unfold rdr in R'. apply R in R' as [R' _].
  apply Hns. apply (f_equal (map ga_addr)) in R'. unfold accounts_of in R'. rewrite !map_map in R'. cbn [account_of ga_addr] in R'. rewrite <- R'. exact Hs'.
Qed.
(** On a datadir that had only genesis, a failure after the state was restored leaves all of the restored chain data behind
    and no floor: the datadir stands at the block, cannot be restored into again, and its older blocks read as empty. *)
Theorem C61_failure_cleans_genesis_dir_refuted E c g EE genesis b d bu rec tr d' root : senv_sound E -> chain_ok E c ->
  bm_sorted (tb_codes (g_tabs g)) -> startable E g d -> ~ fresh d -> names_block E c (bu_state bu) b root -> 0 < b ->
  preflight E EE genesis bu = inl rec -> restore_pack E g d (bu_state bu) = (tr, inl (d', sh_root root)) ->
  exists tr', load_state E EE genesis g d bu false = (tr', inr ConsensusFailed) /\ let d'' := last tr' d in
    tip d'' = b /\ dd_marker d'' = None /\ dd_db d'' = dd_db d' /\ restorer_open E g d'' = ([], inr NonEmptyDatadir) /\
    forall n hn, n <> 0 -> n < b -> b < n + 256 -> ch_hdr c n = Some hn -> read_only_state (dd_marker d'') d'' n (sv_hash E hn) = inl [].
Proof.
  intros Hs Hc Hg Hst Hnf Hn Hb Hp Hr.
  destruct (C61_restore_sound E c g d (bu_state bu) b root tr d' _ Hs Hc Hg Hst Hn Hr) as (Hres & _ & _ & _).
  unfold load_state. rewrite Hp, Hr. cbv zeta. eexists. split; [reflexivity|].
  destruct Hst as [Hst|(db0 & S1 & S2 & _)]; [contradiction|].
  set (d2 := mk_sdir _ _ _ _). set (d'' := last _ d).
  assert (Hd : d'' = mk_sdir None (dd_db d') (dd_sf d') None \/ d'' = mk_sdir None (dd_db d') (dd_sf d') (Some (N.of_nat (er_epoch rec)))).
  { unfold d''. rewrite (app_assoc tr). rewrite last_app2 by (unfold clean; discriminate).
    rewrite (last_default _ d d2) by (unfold clean; discriminate). rewrite clean_last, S1, S2. cbn [is_some]. unfold d2. cbn [dd_db dd_sf dd_cons].
    destruct (is_some (dd_cons d)); auto. }
  assert (Hf : dd_marker d'' = None /\ dd_db d'' = dd_db d' /\ dd_sf d'' = dd_sf d') by (destruct Hd as [-> | ->]; auto).
  clearbody d''. destruct Hf as (F1 & F2 & F3). assert (Ht : tip d'' = b) by (unfold tip; rewrite F3; apply (re_tip _ _ _ _ _ Hres)).
  destruct Hres as [R1 R2 (db & D1 & D2 & _ & _ & _ & _ & D7) R4 R5].
  split; [auto|]. split; [auto|]. split; [auto|]. split.
  - unfold restorer_open, env_new. rewrite F2, F3, D1. unfold header_by_num in R4. destruct (dd_sf d') as [l|]; [|discriminate].
    destruct l as [|[x y] l]; [discriminate|]. cbn in R4. injection R4 as -> ->. rewrite N.eqb_refl.
    rewrite Ht. destruct (N.ltb_spec 0 b); [auto|lia].
  - intros n hn N0 N1 N2 N3. rewrite F1. unfold read_only_state, provider_state. rewrite F2, D1, (D7 n hn); auto; [|lia]. rewrite Ht.
    destruct (N.eqb_spec n b); [lia|auto].
Qed.

(** ---------- the hypotheses are met ---------- *)
(** A concrete chain of four blocks with a zeroed slot, orphaned slots, an account spelling "no code" the long way and a view
    pinned a block late: the export at block 3 skips that view and writes this pack; it restores into an empty datadir and
    into a genesis-only one, and the bundle with the records of two epochs loads. *)
Theorem C61_example_round_trip : exists tr tr' d d',
  export_once XE XC 3 (xhash 3) [XV4; XV] = inl (Some (XRECS, mk_sstats 2 2 1)) /\
  restore_pack XE XG no_dir (map Some XRECS) = (tr, inl (d, sh_root (xh 3))) /\ restored XE XC XG 3 d /\
  restore_pack XE XG (genesis_dir XE XG) (map Some XRECS) = (tr', inl (d', sh_root (xh 3))) /\ restored XE XC XG 3 d' /\
  verify_pack XE (map Some XRECS) = inl (3, mk_sstats 2 2 1) /\ (length tr > 4)%nat.
Proof.
  assert (Hv : forall v, In v [XV4; XV] -> verify_tip v 3 (xhash 3) = true -> view_shows v (ch_state XC 3) /\
     codes_for XE (vw_codes v) (ch_state XC 3) /\ forall x cd, bm_lookup x (vw_codes v) = Some cd -> sv_codeok XE cd = true).
  { intros v [<-|[<-|[]]] H; [discriminate H|]. split; [apply XV_shows|apply XV_codes]. }
  assert (S0 : startable XE XG no_dir) by (left; split; reflexivity).
  assert (S1 : startable XE XG (genesis_dir XE XG)).
  { right. eexists. split; [reflexivity|]. split; [reflexivity|]. split; repeat constructor. }
  destruct (C61_round_trip XE XC XG no_dir 3 (xhash 3) _ _ _ XE_sound XC_ok XG_codes S0 eq_refl Hv XPACK_eq) as (a & tr & d & A1 & _ & A3 & A4).
  destruct (C61_round_trip XE XC XG _ 3 (xhash 3) _ _ _ XE_sound XC_ok XG_codes S1 eq_refl Hv XPACK_eq) as (a' & tr' & d' & B1 & _ & B3 & B4).
  injection A1 as <-. injection B1 as <-. exists tr, tr', d, d'. split; [apply XPACK_eq|]. split; [exact A3|]. split; [auto|]. split; [exact B3|].
  split; [auto|]. split; [vm_compute; reflexivity|].
  assert (L : length (fst (restore_pack XE XG no_dir (map Some XRECS))) = 6%nat) by (vm_compute; reflexivity). rewrite A3 in L. cbn [fst] in L. lia.
Qed.
Theorem C61_example_load : senv_sound XE /\ chain_ok XE XC /\ eenv_sound XEE xsigned /\ true_chain XEE xsigned [4] [1; 2; 3; 4] xrec /\
  certifies XE XC xrec /\ bm_sorted (tb_codes (g_tabs XG)) /\ fresh no_dir /\
  (exists tr, load_state XE XEE [1; 2; 3; 4] XG no_dir XB true = (tr, inl (xname 3, sh_root (xh 3))) /\ length tr = 7%nat) /\
  (exists tr e, load_state XE XEE [1; 2; 3; 4] XG no_dir XB false = (tr, inr e) /\ length tr = 11%nat) /\
  (exists tr e, load_state XE XEE [1; 2; 3; 4] XG (genesis_dir XE XG) XB false = (tr, inr e) /\ tip (last tr no_dir) = 3 /\ dd_marker (last tr no_dir) = None).
Proof.
  split; [apply XE_sound|]. split; [apply XC_ok|]. split; [apply XEE_sound|]. split; [apply XT_true|]. split; [apply XT_certifies|].
  split; [apply XG_codes|]. split; [split; reflexivity|]. split; [apply XB_loads|]. split.
  - eexists. eexists. split; [vm_compute; reflexivity|reflexivity].
  - eexists. eexists. split; [vm_compute; reflexivity|]. split; reflexivity.
Qed.
(** the same pack with its two accounts exchanged still verifies and restores nowhere *)
Definition xswap : list srec := Eval vm_compute in firstn 4 XRECS ++ match skipn 4 XRECS with [a1; s1; a2; e] => [a2; a1; s1; e] | l => l end.
Theorem C61_example_swapped : verify_pack XE (map Some xswap) = inl (3, mk_sstats 2 2 1) /\
  exists tr, restore_pack XE XG no_dir (map Some xswap) = (tr, inr AddressOrder).
Proof. split; [vm_compute; reflexivity|]. eexists. vm_compute. reflexivity. Qed.
(** and cut anywhere it neither verifies nor restores *)
Theorem C61_example_cuts : forall k, (k < length XRECS)%nat -> (exists e, verify_pack XE (firstn k (map Some XRECS)) = inr e) /\
  exists tr e, restore_pack XE XG no_dir (firstn k (map Some XRECS)) = (tr, inr e).
Proof.
  intros k Hk. change (length XRECS) with 8%nat in Hk.
  do 8 (destruct k as [|k]; [split; [eexists; vm_compute; reflexivity|eexists; eexists; vm_compute; reflexivity]|]). lia.
Qed.
