(* What the pack writer and the export walk produce. *)
From Verif Require Import Util EpochModel GasModel SnModel SnSpec SnMaps SnPack.
Local Open Scope N_scope.

Definition stats_add (a b : sstats) : sstats :=
  mk_sstats (ss_accounts a + ss_accounts b) (ss_slots a + ss_slots b) (ss_codes a + ss_codes b).
Lemma removelast_cons {A} (x : A) l : removelast (x :: l) = match l with [] => [] | _ => x :: removelast l end.
Proof. auto. Qed.

(* [w'] is [w] with these chunks appended *)
Definition grown (w w' : swriter) (cs : list (list (N * N))) : Prop :=
  w_recs w' = w_recs w ++ map SStorage cs /\
  w_stats w' = mk_sstats (ss_accounts (w_stats w)) (ss_slots (w_stats w) + sumN (map len cs)) (ss_codes (w_stats w)).
Lemma grown_nil w : grown w w [].
Proof. unfold grown. cbn [map sumN fold_right]. rewrite app_nil_r. change (sumN []) with 0. rewrite N.add_0_r. destruct w as [r [x y z]]. auto. Qed.
Lemma grown_cons w w1 w2 c cs : grown w w1 [c] -> grown w1 w2 cs -> grown w w2 (c :: cs).
Proof.
  intros [A1 A2] [B1 B2]. split.
  - rewrite B1, A1, <- app_assoc. auto.
  - rewrite B2, A2. cbn [ss_accounts ss_slots ss_codes map]. change (sumN (len c :: map len cs)) with (len c + sumN (map len cs)).
    change (sumN [len c]) with (len c + 0). f_equal. lia.
Qed.
Lemma w_chunk_spec w c : c <> [] -> len c <= 65536 -> exists w', w_chunk w c = inl w' /\ grown w w' [c].
Proof.
  intros Hn Hb. unfold w_chunk. destruct c as [|x c]; [congruence|]. apply bound_ok in Hb. rewrite Hb. eexists. split; [reflexivity|].
  split; [auto|]. cbn [w_append w_stats w_recs map]. change (sumN [len (x :: c)]) with (len (x :: c) + 0). rewrite N.add_0_r. auto.
Qed.
Lemma w_slots_spec slots : forall w chunk, len chunk < 65536 ->
  exists w' cs, w_slots w chunk slots = inl w' /\ cut (chunk ++ slots) cs /\ grown w w' cs.
Proof.
  induction slots as [|kv slots IH]; intros w chunk Hb; cbn [w_slots].
  - rewrite app_nil_r. destruct chunk as [|x c].
    + exists w, []. split; [auto|]. split; [|apply grown_nil]. repeat split; constructor.
    + destruct (w_chunk_spec w (x :: c)) as (w' & H1 & H2); [discriminate|lia|]. exists w', [x :: c]. split; [auto|]. split; [|auto].
      split; [cbn [concat]; apply app_nil_r|]. split; [|constructor]. constructor; [split; [discriminate|lia]|constructor].
  - assert (Hl : len (chunk ++ [kv]) = len chunk + 1) by (rewrite len_app; auto).
    unfold CHUNK. destruct (N.eqb_spec (len (chunk ++ [kv])) 65536) as [He|He].
    + destruct (w_chunk_spec w (chunk ++ [kv])) as (w1 & H1 & H2); [destruct chunk; discriminate|lia|]. rewrite H1.
      destruct (IH w1 []) as (w' & cs & H3 & (C1 & C2 & C3) & H4); [rewrite len_nil; lia|]. exists w', ((chunk ++ [kv]) :: cs).
      split; [auto|]. split; [|eapply grown_cons; eauto]. split; [cbn [concat]; rewrite C1, <- app_assoc; auto|].
      split; [constructor; [split; [destruct chunk; discriminate|lia]|auto]|].
      rewrite removelast_cons. destruct cs; [constructor|]. constructor; auto.
    + destruct (IH w (chunk ++ [kv])) as (w' & cs & H3 & H4 & H5); [lia|]. exists w', cs.
      rewrite <- app_assoc in H4. auto.
Qed.

Definition wrote (w w' : swriter) (gs : list group) : Prop :=
  w_recs w' = w_recs w ++ body gs /\ w_stats w' = stats_add (w_stats w) (counts gs).
Lemma counts_nil : counts [] = mk_sstats 0 0 0.
Proof. auto. Qed.
Lemma wrote_nil w : wrote w w [].
Proof.
  split; [cbn; rewrite app_nil_r; auto|]. rewrite counts_nil. unfold stats_add. cbn [ss_accounts ss_slots ss_codes].
  rewrite !N.add_0_r. destruct (w_stats w); auto.
Qed.
Lemma wrote_cons w w1 w2 g gs : wrote w w1 [g] -> wrote w1 w2 gs -> wrote w w2 (g :: gs).
Proof.
  intros [A1 A2] [B1 B2]. split.
  - rewrite B1, A1, <- app_assoc. unfold body. cbn [map concat]. rewrite app_nil_r. auto.
  - rewrite B2, A2. destruct g as [a cs]. rewrite !counts_cons, counts_nil. unfold stats_add. cbn [ss_accounts ss_slots ss_codes]. f_equal; lia.
Qed.
Lemma append_account_spec w a : exists w' g, w_append_account w a = inl w' /\ says a g /\ wrote w w' [g].
Proof.
  unfold w_append_account.
  set (w1 := w_account w (ga_addr a) (ga_nonce a) (ga_bal a) (ga_code a)).
  assert (H : exists w' cs, (match ga_storage a with Some st => w_slots w1 [] st | None => inl w1 end) = inl w' /\
     cut (match ga_storage a with Some ss => ss | None => [] end) cs /\ grown w1 w' cs).
  { destruct (ga_storage a) as [ss|].
    - apply (w_slots_spec ss w1 []). rewrite len_nil. lia.
    - exists w1, []. split; [auto|]. split; [repeat split; constructor|apply grown_nil]. }
  destruct H as (w' & cs & -> & Hc & [G1 G2]). exists w', (mk_arec (ga_addr a) (ga_nonce a) (ga_bal a) (ga_code a), cs).
  split; [auto|]. split; [split; auto|]. split.
  - rewrite G1. unfold w1, w_account, w_append, body. cbn [w_recs map concat group_recs fst snd]. rewrite app_nil_r, <- app_assoc. auto.
  - rewrite G2. rewrite counts_cons, counts_nil. unfold w1, w_account, w_append, stats_add. cbn [w_stats ss_accounts ss_slots ss_codes ar_code].
    f_equal; [lia|]. destruct (has_code (ga_code a)); lia.
Qed.
Fixpoint append_all (w : swriter) (l : list gacct) : res swriter :=
  match l with [] => inl w | a :: r => match w_append_account w a with inl w' => append_all w' r | inr e => inr e end end.
Lemma append_all_spec l : forall w, exists w' gs, append_all w l = inl w' /\ Forall2 says l gs /\ wrote w w' gs.
Proof.
  induction l as [|a l IH]; intros w; cbn [append_all].
  - exists w, []. split; [auto|]. split; [constructor|apply wrote_nil].
  - destruct (append_account_spec w a) as (w1 & g & -> & H1 & H2). destruct (IH w1) as (w' & gs & -> & H3 & H4).
    exists w', (g :: gs). split; [auto|]. split; [constructor; auto|]. eapply wrote_cons; eauto.
Qed.

(* ---------- the export walk lays out what append_account lays out ---------- *)
Fixpoint past (addr : N) (rows : list row) : list row :=
  match rows with [] => [] | (a, k, v) :: r => if addr <? a then (a, k, v) :: r else past addr r end.
Lemma past_sorted addr rows : StronglySorted row_lt rows -> StronglySorted row_lt (past addr rows).
Proof. induction 1 as [|[[a k] v] r Hs IH Hf]; cbn [past]; [constructor|]. destruct (addr <? a); auto. constructor; auto. Qed.
Lemma slots_of_cons a k v rows x : slots_of ((a, k, v) :: rows) x = if (a =? x) && negb (v =? 0) then (k, v) :: slots_of rows x else slots_of rows x.
Proof. unfold slots_of. cbn [filter fst snd]. destruct ((a =? x) && negb (v =? 0)); auto. Qed.
Lemma past_slots addr x rows : addr < x -> slots_of (past addr rows) x = slots_of rows x.
Proof.
  intros Hx. induction rows as [|[[a k] v] r IH]; cbn [past]; auto. destruct (N.ltb_spec addr a) as [|Hl]; auto.
  rewrite slots_of_cons, IH. destruct (N.eqb_spec a x); [lia|]. auto.
Qed.
Lemma beyond_slots x rows : Forall (fun r => x < fst (fst r)) rows -> slots_of rows x = [].
Proof.
  induction 1 as [|[[a k] v] r H _ IH]; auto. rewrite slots_of_cons, IH. cbn [fst] in H. destruct (N.eqb_spec a x); [lia|auto].
Qed.
Lemma stream_slots_eq addr rows : StronglySorted row_lt rows -> forall chunk prev w,
  (forall p, prev = Some p -> Forall (fun r => fst (fst r) = addr -> p < snd (fst r)) rows) ->
  stream_slots addr rows chunk prev w =
    match w_slots w chunk (slots_of rows addr) with inl w' => inl (past addr rows, w') | inr e => inr e end.
Proof.
  assert (Fl : forall (rows : list row) chunk w, match chunk with [] => (inl (rows, w) : res (list row * swriter)) | _ => match w_chunk w chunk with inl w' => inl (rows, w') | inr e => inr e end end
     = match w_chunk w chunk with inl w' => inl (rows, w') | inr e => inr e end) by (intros r [|x c] w; auto).
  induction 1 as [|[[a k] v] rows Hs IH Hf]; intros chunk prev w Hp; cbn [stream_slots past].
  - cbn [slots_of filter map w_slots]. apply Fl.
  - destruct (N.ltb_spec addr a) as [Hl|Hl].
    + rewrite slots_of_cons. destruct (N.eqb_spec a addr); [lia|]. cbn [andb]. rewrite beyond_slots; [cbn [w_slots]; apply Fl|].
      eapply Forall_impl; [|exact Hf]. intros [[a' k'] v'] Hr. unfold row_lt in Hr. cbn [fst snd] in *. lia.
    + rewrite slots_of_cons. destruct (N.eqb_spec a addr) as [Ha|Ha]; cbn [andb].
      * subst a. assert (Hk : Forall (fun r : row => fst (fst r) = addr -> k < snd (fst r)) rows).
        { eapply Forall_impl; [|exact Hf]. intros [[a' k'] v'] Hr. unfold row_lt in Hr. cbn [fst snd] in *. lia. }
        destruct (v =? 0) eqn:Ev; cbn [negb].
        { apply IH. intros p Hpp. specialize (Hp p Hpp). inversion Hp; auto. }
        assert (Hlt : match prev with None => true | Some p => p <? k end = true).
        { destruct prev as [p|]; auto. specialize (Hp p eq_refl). inversion Hp as [|? ? H1 _]; subst. apply N.ltb_lt. apply H1. auto. }
        rewrite Hlt. cbn [w_slots]. destruct (len (chunk ++ [(k, v)]) =? CHUNK).
        { destruct (w_chunk w (chunk ++ [(k, v)])) as [w'|e]; auto. apply IH. intros p Hpp. injection Hpp as <-. auto. }
        apply IH. intros p Hpp. injection Hpp as <-. auto.
      * apply IH. intros p Hpp. specialize (Hp p Hpp). inversion Hp; auto.
Qed.

Lemma resolve_spec E cs a : (forall h, ac_code a = Some h -> h <> sv_code E [] -> exists c, bm_lookup h cs = Some c /\ sv_code E c = h) ->
  resolve_code E cs a = inl (code_of E cs a).
Proof.
  intros H. unfold resolve_code, code_of. destruct (ac_code a) as [h|]; auto. destruct (N.eqb_spec h (sv_code E [])) as [|Hn]; auto.
  destruct (H h eq_refl Hn) as (c & -> & _). auto.
Qed.
Lemma export_plain_eq E cs st : forall rows w, bm_sorted st -> codes_for E cs st -> StronglySorted row_lt rows ->
  Forall (fun e => slots_of rows (fst e) = snd (snd e)) st ->
  export_plain E cs (map (fun e => (fst e, fst (snd e))) st) rows w = append_all w (map (described E cs) st).
Proof.
  induction st as [|[addr [acc ss]] st IH]; intros rows w Hs Hc Hr Hf; cbn [map export_plain append_all fst snd]; auto.
  assert (Hl : bm_lookup addr ((addr, (acc, ss)) :: st) = Some (acc, ss)) by (cbn [bm_lookup]; rewrite N.eqb_refl; auto).
  rewrite resolve_spec by (intros h H1 H2; exact (Hc addr acc ss h Hl H1 H2)).
  rewrite stream_slots_eq by (auto; intros p Hp; discriminate).
  inversion Hf as [|? ? H1 H2]; subst. cbn [fst snd] in H1.
  assert (Hd : w_append_account w (described E cs (addr, (acc, ss))) =
     w_slots (w_account w addr (ac_nonce acc) (ac_bal acc) (code_of E cs acc)) [] (slots_of rows addr)).
  { unfold w_append_account, described. cbn [ga_addr ga_nonce ga_bal ga_code ga_storage fst snd]. rewrite H1. destruct ss; auto. }
  rewrite Hd. destruct (w_slots _ _ _) as [w'|e]; auto. apply IH; auto.
  - eapply bm_tail; eauto.
  - intros a acc' ss' h L1 L2 L3. apply (Hc a acc' ss' h); auto. cbn [bm_lookup].
    destruct (N.eqb_spec a addr) as [Ha|]; auto. subst a. pose proof (bm_head_lt _ _ _ addr Hs (bm_lookup_key _ _ _ L1)). lia.
  - apply past_sorted. auto.
  - rewrite Forall_forall in H2 |- *. intros e He. rewrite past_slots; auto.
    apply (bm_head_lt _ _ _ (fst e) Hs). apply in_map. auto.
Qed.
Lemma cut_bounded slots cs : cut slots cs -> Forall (fun c => len c <= 65536) cs.
Proof. intros (_ & H & _). eapply Forall_impl; [|exact H]. intros c [_ Hc]. auto. Qed.
Lemma says_bounded l gs : Forall2 says l gs -> bounded gs.
Proof. induction 1 as [|a g l gs [_ H] _ IH]; constructor; auto. eapply cut_bounded; eauto. Qed.
Lemma says_account a g : says a g -> account_of (fst g) (concat (snd g)) =
  mk_gacct (ga_addr a) (ga_nonce a) (ga_bal a) (ga_code a) (match ga_storage a with Some (x :: l) => Some (bm_of_list (x :: l)) | _ => None end).
Proof. intros [H1 (H2 & _)]. unfold account_of. rewrite H1, H2. destruct (ga_storage a) as [[|x l]|]; auto. Qed.
Lemma says_accounts E cs st gs : wf_state st -> Forall2 says (map (described E cs) st) gs -> accounts_of gs = map (described E cs) st.
Proof.
  intros [_ Hw]. revert gs. induction Hw as [|[a [acc ss]] st [H1 _] _ IH]; intros gs Hf; inversion Hf as [|? g ? gs' Hg Hf']; subst; auto.
  unfold accounts_of. cbn [map]. fold (accounts_of gs'). rewrite IH by auto. rewrite (says_account _ _ Hg).
  unfold described. cbn [ga_addr ga_nonce ga_bal ga_code ga_storage fst snd] in *. destruct ss as [|x ss]; auto.
  rewrite bm_of_list_id by auto. auto.
Qed.

Lemma export_spec E v st root h hs : view_shows v st -> wf_state st -> codes_for E (vw_codes v) st -> sh_root h = root ->
  exists gs, export_state_pack E v root (h :: hs) =
    inl ((SMeta (mk_smeta root (sh_num h) (sv_hash E h) (len (h :: hs) mod 2 ^ 32)) :: map (fun x => SHeader (sv_enc E x)) (h :: hs))
           ++ body gs ++ [SEnd (counts gs)], counts gs) /\
    Forall2 says (map (described E (vw_codes v)) st) gs.
Proof.
  intros (V1 & V2 & V3) Hw Hc Hr. unfold export_state_pack, w_create. rewrite Hr, N.eqb_refl. cbn [negb]. rewrite V1.
  rewrite export_plain_eq by (auto; apply Hw).
  set (w0 := mk_sw _ _). destruct (append_all_spec (map (described E (vw_codes v)) st) w0) as (w' & gs & -> & H1 & [H2 H3]).
  exists gs. split; auto. f_equal. unfold w_finish, w_append. cbn [w_recs].
  assert (Hz : w_stats w' = counts gs).
  { rewrite H3. unfold w0, stats_add. cbn [w_stats ss_accounts ss_slots ss_codes]. destruct (counts gs) as [x y z]. cbn [ss_accounts ss_slots ss_codes].
    rewrite !N.add_0_l. auto. }
  rewrite Hz, H2. f_equal. unfold w0. cbn [w_recs]. rewrite <- app_assoc. auto.
Qed.
