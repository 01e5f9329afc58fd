From Verif Require Import Util Types CommitteeModel CommitteeProofs CertModel LeaderModel LeaderProofs GasModel BullModel BullSpec BullProofs1 BullProofs2 BullProofs3.
Local Open Scope N_scope.

(* ---------- small list facts ---------- *)
Lemma maxN_app a b : maxN (a ++ b) = N.max (maxN a) (maxN b).
Proof. induction a as [|x a IH]; cbn [app maxN fold_right]; [unfold maxN; simpl; lia|]. unfold maxN in *. rewrite IH. lia. Qed.
Lemma maxN_le l m : (forall x, In x l -> x <= m) -> maxN l <= m.
Proof.
  induction l as [|x l IH]; intros H; [cbn; lia|]. change (N.max x (maxN l) <= m).
  pose proof (H x (or_introl eq_refl)). assert (maxN l <= m) by (apply IH; intros; apply H; right; assumption). lia.
Qed.
Lemma maxN_ge l x : In x l -> x <= maxN l.
Proof.
  induction l as [|y l IH]; [intros []|]. change (In x (y :: l) -> x <= N.max y (maxN l)).
  intros [->|H]; [lia|]. specialize (IH H). lia.
Qed.
Lemma filter_filter_gt d g1 g2 : g1 <= g2 ->
  filter (fun y => g2 <? c_round y) (filter (fun y => g1 <? c_round y) d) = filter (fun y => g2 <? c_round y) d.
Proof.
  intros H. induction d as [|x d IH]; [reflexivity|]. cbn [filter].
  destruct (N.ltb_spec g1 (c_round x)); cbn [filter]; [rewrite IH; reflexivity|].
  destruct (N.ltb_spec g2 (c_round x)); [lia|exact IH].
Qed.
Lemma filter_all_gt d g : (forall x, In x d -> g < c_round x) -> filter (fun y => g <? c_round y) d = d.
Proof.
  induction d as [|x d IH]; intros H; [reflexivity|]. cbn [filter].
  pose proof (H x (or_introl eq_refl)). destruct (N.ltb_spec g (c_round x)); [|lia]. f_equal. apply IH.
  intros; apply H; right; assumption.
Qed.

(* ---------- state.update over a sequence ---------- *)
Definition rounds_by (a : N) (l : list cert) : list N := map c_round (filter (fun x => c_origin x =? a) l).
Definition hrounds_by (a : N) (l : list header) : list N := map h_round (filter (fun h => h_author h =? a) l).
Lemma rounds_by_headers a l : rounds_by a l = hrounds_by a (map c_header l).
Proof.
  unfold rounds_by, hrounds_by. induction l as [|x l IH]; [reflexivity|]. cbn [filter map].
  unfold c_origin at 1. destruct (h_author (c_header x) =? a); cbn [map]; rewrite IH; reflexivity.
Qed.

Lemma wm_insert m a b r : bm_sorted m ->
  wm (bm_insert b (match bm_lookup b m with Some x => N.max x r | None => r end) m) a =
  if a =? b then N.max (wm m b) r else wm m a.
Proof.
  intros S. unfold wm at 1. rewrite bm_lookup_insert by assumption. destruct (a =? b); [|reflexivity].
  unfold wm. destruct (bm_lookup b m); lia.
Qed.

Lemma fold_update depth seq : forall s,
  b_gc s = b_committed s - depth -> (forall x, In x (b_dag s) -> b_gc s < c_round x) -> bm_sorted (b_last s) ->
  let s1 := fold_left (update depth) seq s in
  b_committed s1 = N.max (b_committed s) (maxN (map c_round seq)) /\
  b_gc s1 = b_committed s1 - depth /\
  b_dag s1 = filter (fun y => b_gc s1 <? c_round y) (b_dag s) /\
  bm_sorted (b_last s1) /\
  (forall a, wm (b_last s1) a = N.max (wm (b_last s) a) (maxN (rounds_by a seq))) /\
  b_sub s1 = b_sub s /\ b_seed s1 = b_seed s /\ b_table s1 = b_table s.
Proof.
  induction seq as [|x seq IH]; intros s Hg Hd Hs.
  - cbn [fold_left map]. change (maxN []) with 0. split; [lia|]. split; [assumption|].
    split; [symmetry; apply filter_all_gt; assumption|]. split; [assumption|].
    split; [intros a; change (maxN (rounds_by a [])) with 0; lia|]. auto.
  - cbn [fold_left]. set (s0 := update depth s x).
    assert (G0 : b_gc s0 = b_committed s0 - depth) by reflexivity.
    assert (D0 : forall y, In y (b_dag s0) -> b_gc s0 < c_round y).
    { intros y Hy. unfold s0, update in *. cbn [b_dag b_gc] in *. apply filter_In in Hy as [_ Hy].
      apply N.ltb_lt. assumption. }
    assert (S0 : bm_sorted (b_last s0)) by (apply bm_insert_sorted; assumption).
    destruct (IH s0 G0 D0 S0) as (A & B & C & D & E & F1 & F2 & F3). cbn zeta in *.
    assert (C0 : b_committed s0 = N.max (b_committed s) (c_round x)) by reflexivity.
    split. { rewrite A, C0. cbn [map]. change (maxN (c_round x :: map c_round seq)) with (N.max (c_round x) (maxN (map c_round seq))). lia. }
    split; [assumption|]. split.
    { assert (LE : gc_round (N.max (b_committed s) (c_round x)) depth <= b_gc (fold_left (update depth) seq s0))
        by (rewrite B, A, C0; unfold gc_round; lia).
      revert C LE. generalize (b_gc (fold_left (update depth) seq s0)) as g. intros g C LE. rewrite C.
      change (b_dag s0) with (filter (fun y => gc_round (N.max (b_committed s) (c_round x)) depth <? c_round y) (b_dag s)).
      apply filter_filter_gt. exact LE. }
    split; [assumption|]. split.
    { intros a. rewrite E. unfold s0, update. cbn [b_last]. rewrite wm_insert by assumption.
      unfold rounds_by. cbn [filter]. destruct (N.eqb_spec a (c_origin x)) as [->|Ne].
      - rewrite N.eqb_refl. cbn [map].
        change (maxN (c_round x :: ?l)) with (N.max (c_round x) (maxN l)). lia.
      - destruct (N.eqb_spec (c_origin x) a); [congruence|]. reflexivity. }
    rewrite F1, F2, F3. auto.
Qed.

(* ---------- scores ---------- *)
Definition keys_ok (cm : committee) (sc : scores) : Prop := bm_sorted (sc_map sc) /\ bm_keys (sc_map sc) = member_ids cm.
Lemma keys_new cm : committee_wf cm -> keys_ok cm (scores_new cm).
Proof.
  intros wf. assert (HS : bm_sorted (sc_map (scores_new cm))) by apply bm_of_list_sorted.
  split; [exact HS|]. apply ssorted_ext; [exact HS|apply wf_ids_sorted; assumption|].
  intros x. unfold scores_new. cbn [sc_map]. rewrite bm_of_list_keys. rewrite map_map. reflexivity.
Qed.
Lemma keys_add cm sc id v : keys_ok cm sc -> In id (member_ids cm) -> keys_ok cm (add_score sc id v).
Proof.
  intros [HS HK] Hin. rewrite <- HK in Hin.
  assert (H : forall w, bm_sorted (bm_insert id w (sc_map sc)) /\ bm_keys (bm_insert id w (sc_map sc)) = member_ids cm).
  { intros w. pose proof (bm_insert_sorted id w _ HS) as HS'. split; [exact HS'|]. rewrite <- HK.
    apply ssorted_ext; [exact HS'|exact HS|]. intros x. rewrite bm_insert_keys.
    split; [intros [->|X]; assumption|auto]. }
  unfold add_score, keys_ok. destruct (bm_lookup id (sc_map sc)); apply H.
Qed.
Lemma keys_supporters cm prev seq : (forall x, In x seq -> In (c_origin x) (member_ids cm)) ->
  forall sc, keys_ok cm sc -> keys_ok cm (add_supporters prev seq sc).
Proof.
  unfold add_supporters. induction seq as [|x seq IH]; intros H sc K; [exact K|]. cbn [fold_left].
  apply IH; [intros; apply H; right; assumption|].
  destruct (_ && _); [|exact K]. apply keys_add; [exact K|]. apply H. left. reflexivity.
Qed.
Lemma resolve_ok cm num prev seq index : committee_wf cm ->
  (forall x, In x seq -> In (c_origin x) (member_ids cm)) ->
  (forall d, prev = Some d -> keys_ok cm (sd_scores d)) ->
  exists sc, resolve_scores cm num prev seq index = Ok sc /\ keys_ok cm sc.
Proof.
  intros wf HO HP. unfold resolve_scores.
  set (base := if index / 2 mod num =? 0 then scores_new cm else match prev with Some d => sd_scores d | None => scores_new cm end).
  assert (KB : keys_ok cm base).
  { unfold base. destruct (_ =? 0); [apply keys_new; assumption|]. destruct prev as [d|]; [apply HP; reflexivity|apply keys_new; assumption]. }
  set (sc := match prev with Some d => add_supporters d seq base | None => base end).
  assert (KS : keys_ok cm sc).
  { unfold sc. destruct prev as [d|]; [apply keys_supporters; assumption|assumption]. }
  assert (LEN : total_authorities sc = cm_size cm).
  { unfold total_authorities. destruct KS as [_ K]. rewrite <- (member_ids_length cm wf), <- K. unfold bm_keys.
    rewrite map_length. reflexivity. }
  unfold total_authorities in *. cbn [sc_map]. rewrite LEN, N.eqb_refl. eexists. split; [reflexivity|exact KS].
Qed.

Lemma resolve_sim cm num prev seq1 seq2 index : map c_header seq1 = map c_header seq2 ->
  resolve_scores cm num prev seq1 index = resolve_scores cm num prev seq2 index.
Proof.
  intros E. assert (X : forall d sc, add_supporters d seq1 sc = add_supporters d seq2 sc).
  { unfold add_supporters. revert seq2 E. induction seq1 as [|x seq1 IH]; intros [|y seq2] E d sc; cbn [map] in E; try discriminate; [reflexivity|].
    inversion E as [[Exy E']]. cbn [fold_left]. rewrite (hround _ _ Exy), (hparents _ _ Exy), (horigin _ _ Exy).
    apply IH. assumption. }
  unfold resolve_scores. destruct prev; [rewrite X|]; reflexivity.
Qed.

(* ---------- the state as a function of the committed chain ---------- *)
Definition chain_last (chain : list subdag) : option subdag := match rev chain with [] => None | d :: _ => Some d end.
Definition chain_wm (chain : list subdag) (a : N) : N := maxN (hrounds_by a (flat_map sd_headers chain)).

Record shape (cm : committee) (d : subdag) : Prop := {
  sh_last : exists pre l, sd_headers d = pre ++ [l] /\ forall h, In h pre -> h_round h < h_round l;
  sh_even : sd_round d mod 2 = 0;
  sh_pos : 2 <= sd_round d;
  sh_sorted : StronglySorted (fun h1 h2 => h_round h1 <= h_round h2) (sd_headers d);
  sh_scores : keys_ok cm (sd_scores d);
  sh_members : forall h, In h (sd_headers d) -> In (h_author h) (member_ids cm)
}.
Definition rounds_up (a b : subdag) : Prop := sd_round a < sd_round b.

Lemma sd_leader_app pre l sc ts rd : sd_leader (mkSubDag (pre ++ [l]) sc ts rd) = l.
Proof. unfold sd_leader. cbn [sd_headers]. apply last_last. Qed.
Lemma shape_rounds cm d h : shape cm d -> In h (sd_headers d) -> h_round h <= sd_round d.
Proof.
  intros S Hh. destruct (sh_last _ _ S) as (pre & l & E & H). unfold sd_round, sd_leader. rewrite E, last_last in *.
  apply in_app_or in Hh as [Hh|[<-|[]]]; [|lia]. specialize (H _ Hh). lia.
Qed.

Section Inv.
Variable fsqrt : N -> N.
Variable fold_seed : N -> N -> N -> N.
Variable legacy_rand : N -> N.
Variable epoch_root : N -> N.
Variable seed_active : N -> bool.
Variable cm : committee.
Variables gc_depth num pct : N.
Variable G : header -> Prop.
Hypothesis wf : committee_wf cm.
Hypothesis ok : dag_ok cm G.
Hypothesis sqrt0 : fsqrt 0 = 0.
Hypothesis pct_ok : pct <= 33.

Definition chain_table (chain : list subdag) : option swap_table :=
  match find (fun d => sc_final (sd_scores d)) (rev chain) with
  | None => Some table_default
  | Some d => table_new fsqrt cm (sd_round d) (sd_scores d) pct
  end.
Definition chain_seed (chain : list subdag) : N :=
  match chain_last chain with None => epoch_root (cm_epoch cm) | Some d => sd_rand d end.

Record Inv (s : bstate) (chain : list subdag) : Prop := {
  i_dag : dagInv G (b_dag s) (b_gc s);
  i_committed : b_committed s = chain_round chain;
  i_gc : b_gc s = b_committed s - gc_depth;
  i_sorted : bm_sorted (b_last s);
  i_wm : forall a, N.max (wm (b_last s) a) (b_gc s) = N.max (chain_wm chain a) (b_gc s);
  i_sub : b_sub s = chain_last chain;
  i_seed : b_seed s = chain_seed chain;
  i_table : chain_table chain = Some (b_table s);
  i_shape : Forall (shape cm) chain;
  i_up : StronglySorted rounds_up chain
}.

Lemma chain_last_app chain d : chain_last (chain ++ [d]) = Some d.
Proof. unfold chain_last. rewrite rev_app_distr. reflexivity. Qed.
Lemma chain_round_app chain d : chain_round (chain ++ [d]) = sd_round d.
Proof. unfold chain_round. rewrite rev_app_distr. reflexivity. Qed.
Lemma chain_wm_app chain d a : chain_wm (chain ++ [d]) a = N.max (chain_wm chain a) (maxN (hrounds_by a (sd_headers d))).
Proof.
  unfold chain_wm. rewrite flat_map_app. cbn [flat_map]. rewrite app_nil_r. unfold hrounds_by.
  rewrite filter_app, map_app, maxN_app. reflexivity.
Qed.

Lemma even_committed s chain : Inv s chain -> b_committed s mod 2 = 0.
Proof.
  intros I. rewrite (i_committed _ _ I). unfold chain_round. destruct (rev chain) as [|d t] eqn:E; [reflexivity|].
  pose proof (i_shape _ _ I) as F. rewrite Forall_forall in F. apply (sh_even cm).
  apply F. apply in_rev. rewrite E. left. reflexivity.
Qed.
Lemma chain_wm_le s chain a : Inv s chain -> chain_wm chain a <= b_committed s.
Proof.
  intros I. unfold chain_wm. apply maxN_le. intros r Hr. unfold hrounds_by in Hr.
  apply in_map_iff in Hr as (h & <- & Hh). apply filter_In in Hh as [Hh _]. apply in_flat_map in Hh as (d & Hd & Hh).
  pose proof (i_shape _ _ I) as F. rewrite Forall_forall in F.
  pose proof (shape_rounds cm d h (F d Hd) Hh) as HR.
  rewrite (i_committed _ _ I). unfold chain_round. destruct (rev chain) as [|e t] eqn:E.
  { apply in_rev in Hd. rewrite E in Hd. contradiction. }
  assert (Ec : chain = rev t ++ [e]) by (rewrite <- (rev_involutive chain), E; reflexivity).
  pose proof (i_up _ _ I) as U. rewrite Ec in U, Hd.
  apply in_app_or in Hd as [Hd|[<-|[]]]; [|assumption].
  assert (X : forall p, StronglySorted rounds_up (p ++ [e]) -> In d p -> rounds_up d e).
  { clear. intros p S. induction p as [|a p IH]; [intros []|]. cbn [app] in S. inversion S as [|? ? S' F]; subst.
    rewrite Forall_forall in F. intros [->|H]; [apply F; apply in_or_app; right; left; reflexivity|apply IH; assumption]. }
  specialize (X _ U Hd). unfold rounds_up in X. lia.
Qed.
Lemma wm_le_committed s chain a : Inv s chain -> wm (b_last s) a <= b_committed s.
Proof.
  intros I. pose proof (i_wm _ _ I a) as W. pose proof (chain_wm_le s chain a I). pose proof (i_gc _ _ I). lia.
Qed.

Notation commit_one := (commit_one fsqrt fold_seed legacy_rand seed_active cm gc_depth num pct).
Notation stop_of L := (c_round L - gc_depth + 1).

(* committing one leader *)
Lemma commit_one_ok s chain L : Inv s chain -> In L (b_dag s) -> b_committed s < c_round L -> c_round L mod 2 = 0 ->
  exists s' sd b R,
    commit_one s L = Ok (s', sd, b) /\
    dfs (b_dag s) (b_last s) (stop_of L) (S (length (b_dag s))) [L] [] = Some R /\
    sd_headers sd = map c_header (sort_by_round R) /\
    resolve_scores cm num (chain_last chain) (sort_by_round R) (c_nonce L) = Ok (sd_scores sd) /\
    sd_ts sd = N.max (match chain_last chain with Some d => sd_ts d | None => 0 end) (h_created (c_header L)) /\
    sd_rand sd = (if seed_active (c_epoch L) then fold_seed (chain_seed chain) (c_round L) (h_seed (c_header L))
                  else legacy_rand (match aggregated_signature (c_state L) with Some g => g | None => 0 end)) /\
    sd_leader sd = c_header L /\
    Inv s' (chain ++ [sd]) /\
    b_dag s' = filter (fun y => b_gc s' <? c_round y) (b_dag s) /\
    b_committed s' = c_round L /\
    (b = false -> b_table s' = b_table s) /\ b = sc_final (sd_scores sd).
Proof.
  intros I HL Hc He.
  assert (Hpos : 2 <= c_round L) by lia.
  destruct (order_dag_total gc_depth s L) as (R & EO & ED); [lia|]. unfold gc_round in ED.
  destruct (dfs_top cm G ok (b_dag s) (b_last s) (b_gc s) (stop_of L) L (i_dag _ _ I) HL _ R ED) as (ND & HLR & HR).
  assert (FACT : forall y, In y R -> y = L \/ (In y (b_dag s) /\ c_round y < c_round L /\ liveb (b_last s) y)).
  { intros y Hy. apply HR in Hy. apply ereach_facts in Hy. exact Hy. }
  assert (HRd : forall y, In y R -> In y (b_dag s)) by (intros y Hy; destruct (FACT y Hy) as [->|(A & _)]; assumption).
  assert (NDR : NoDup R) by (apply (NoDup_map_inv c_digest); assumption).
  destruct (sort_last L R HLR) as (pre & ES & PP); [|assumption|].
  { intros y Hy. destruct (FACT y Hy) as [->|(_ & A & _)]; auto. }
  set (seq := sort_by_round R) in *.
  assert (HSd : forall y, In y seq -> In y (b_dag s)).
  { intros y Hy. apply HRd. apply (Permutation_in _ (sort_perm R)). assumption. }
  destruct (fold_update gc_depth seq s (i_gc _ _ I) (di_above _ _ _ (i_dag _ _ I)) (i_sorted _ _ I))
    as (A1 & A2 & A3 & A4 & A5 & A6 & A7 & A8).
  set (s1 := fold_left (update gc_depth) seq s) in *. cbn zeta in *.
  assert (C1 : b_committed s1 = c_round L).
  { rewrite A1. assert (maxN (map c_round seq) = c_round L); [|lia]. apply N.le_antisymm.
    - apply maxN_le. intros r Hr. apply in_map_iff in Hr as (y & <- & Hy).
      apply (Permutation_in _ (sort_perm R)) in Hy. destruct (FACT y Hy) as [->|(_ & A & _)]; lia.
    - apply maxN_ge. apply in_map. rewrite ES. apply in_or_app. right. left. reflexivity. }
  destruct (resolve_ok cm num (b_sub s1) seq (c_nonce L) wf) as (sc & ESC & KSC).
  { intros y Hy. apply (d_author _ _ ok). apply (di_G _ _ _ (i_dag _ _ I)). apply HSd. assumption. }
  { intros d Ed. rewrite A6, (i_sub _ _ I) in Ed. unfold chain_last in Ed. destruct (rev chain) as [|e t] eqn:E; [discriminate|].
    inversion Ed; subst e. pose proof (i_shape _ _ I) as F. rewrite Forall_forall in F. apply F.
    apply in_rev. rewrite E. left. reflexivity. }
  assert (SUB : exists sd, subdag_new fold_seed legacy_rand seed_active seq L sc (b_sub s1) (b_seed s1) = Some sd /\
    sd_headers sd = map c_header seq /\ sd_scores sd = sc /\
    sd_ts sd = N.max (match chain_last chain with Some d => sd_ts d | None => 0 end) (h_created (c_header L)) /\
    sd_rand sd = (if seed_active (c_epoch L) then fold_seed (chain_seed chain) (c_round L) (h_seed (c_header L))
                  else legacy_rand (match aggregated_signature (c_state L) with Some g => g | None => 0 end)) /\
    sd_leader sd = c_header L).
  { unfold subdag_new. rewrite ES, rev_app_distr. cbn [rev app]. rewrite N.eqb_refl, A6, A7, (i_sub _ _ I), (i_seed _ _ I).
    eexists. split; [reflexivity|]. cbn [sd_headers sd_scores sd_ts sd_rand].
    split; [reflexivity|]. split; [reflexivity|]. split; [reflexivity|]. split; [reflexivity|].
    rewrite map_app. cbn [map]. apply sd_leader_app. }
  destruct SUB as (sd & ESD & F1 & F2 & F3 & F4 & F5).
  assert (SR : sd_round sd = c_round L) by (unfold sd_round; rewrite F5; reflexivity).
  assert (TBL : sc_final sc = true -> exists t, table_new fsqrt cm (c_round L) sc pct = Some t).
  { intros EF. destruct KSC as [K1 K2].
    destruct (table_new_spec cm wf fsqrt (c_round L) sc pct sqrt0 K1 K2 EF pct_ok) as (t & Et & _). exists t. exact Et. }
  assert (GCLE : b_gc s <= b_gc s1) by (rewrite A2, C1, (i_gc _ _ I); lia).
  assert (INV' : forall t, chain_table (chain ++ [sd]) = Some t ->
            Inv (mkB (b_committed s1) (b_gc s1) (b_last s1) (Some sd) (b_dag s1) (sd_rand sd) t) (chain ++ [sd])).
  { intros t Et. constructor; cbn [b_committed b_gc b_last b_sub b_dag b_seed b_table].
    - rewrite A3. eapply dagInv_purge; [apply I|exact GCLE].
    - rewrite chain_round_app, SR. exact C1.
    - exact A2.
    - exact A4.
    - intros a. rewrite A5, chain_wm_app, F1, rounds_by_headers. pose proof (i_wm _ _ I a). lia.
    - rewrite chain_last_app. reflexivity.
    - unfold chain_seed. rewrite chain_last_app. reflexivity.
    - exact Et.
    - apply Forall_app. split; [apply I|]. constructor; [|constructor].
      constructor.
      + exists (map c_header pre), (c_header L). split; [rewrite F1, ES, map_app; reflexivity|].
        intros h Hh. apply in_map_iff in Hh as (y & <- & Hy).
        apply (Permutation_in _ PP) in Hy. apply filter_In in Hy as [Hy Hn].
        destruct (FACT y Hy) as [->|(_ & A & _)]; [|exact A]. rewrite N.eqb_refl in Hn. discriminate.
      + rewrite SR. exact He.
      + rewrite SR. lia.
      + rewrite F1. pose proof (sort_sorted R) as SS. fold seq in SS. clear - SS.
        induction SS as [|x l SS IH F]; cbn [map]; constructor; [exact IH|].
        rewrite Forall_forall in *. intros h Hh. apply in_map_iff in Hh as (y & <- & Hy). apply F. assumption.
      + rewrite F2. exact KSC.
      + intros h Hh. rewrite F1 in Hh. apply in_map_iff in Hh as (y & <- & Hy).
        apply (d_author _ _ ok). apply (di_G _ _ _ (i_dag _ _ I)). apply HSd. assumption.
    - assert (LAST : forall d, In d chain -> rounds_up d sd).
      { intros d Hd. unfold rounds_up. rewrite SR. pose proof (i_shape _ _ I) as FS. rewrite Forall_forall in FS.
        destruct (sh_last _ _ (FS d Hd)) as (p & l & El & _).
        assert (Hin : In l (sd_headers d)) by (rewrite El; apply in_or_app; right; left; reflexivity).
        assert (El2 : sd_round d = h_round l) by (unfold sd_round, sd_leader; rewrite El, last_last; reflexivity).
        pose proof (chain_wm_le s chain (h_author l) I) as W.
        assert (h_round l <= chain_wm chain (h_author l)); [|lia].
        unfold chain_wm. apply maxN_ge. unfold hrounds_by. apply in_map. apply filter_In.
        split; [apply in_flat_map; exists d; auto|apply N.eqb_refl]. }
      clear - LAST I. pose proof (i_up _ _ I) as U. clear I. induction U as [|d l U IH F]; cbn [app].
      + constructor; constructor.
      + constructor; [apply IH; intros; apply LAST; right; assumption|].
        apply Forall_app. split; [assumption|]. constructor; [apply LAST; left; reflexivity|constructor]. }
  assert (TAPP : chain_table (chain ++ [sd]) =
     if sc_final sc then table_new fsqrt cm (c_round L) sc pct else chain_table chain).
  { unfold chain_table. rewrite rev_app_distr. cbn [rev app find]. rewrite F2. destruct (sc_final sc); [rewrite SR, F2|]; reflexivity. }
  unfold BullModel.commit_one. rewrite EO. fold s1. rewrite ESC, ESD.
  destruct (sc_final sc) eqn:EF.
  - destruct (TBL eq_refl) as (t & Et). rewrite Et.
    eexists _, sd, true, R. split; [reflexivity|]. split; [exact ED|]. split; [exact F1|].
    split; [rewrite <- (i_sub _ _ I), <- A6, F2; exact ESC|].
    split; [exact F3|]. split; [exact F4|]. split; [exact F5|].
    split; [apply INV'; rewrite TAPP; exact Et|].
    cbn [b_dag b_gc b_committed]. split; [exact A3|]. split; [exact C1|]. split; [discriminate|congruence].
  - eexists _, sd, false, R. split; [reflexivity|]. split; [exact ED|]. split; [exact F1|].
    split; [rewrite <- (i_sub _ _ I), <- A6, F2; exact ESC|].
    split; [exact F3|]. split; [exact F4|]. split; [exact F5|].
    split; [apply INV'; rewrite TAPP, A8; apply I|].
    cbn [b_dag b_gc b_committed b_table]. split; [exact A3|]. split; [exact C1|]. split; [intros _; exact A8|congruence].
Qed.
End Inv.
