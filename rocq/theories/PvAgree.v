(** Proofs for C62: laid out files are the ones the importer takes. *)
From Verif Require Import Util OutModel OutSpec OutProofs ImpModel ImpSpec ImpProofs PvModel PvSpec PvProofs PvWalk PvReport PvImport.
Local Open Scope N_scope.

Section P.
Variable bd : N -> N.
Variable hd : N -> subdag -> N -> N.
Variable idof : N -> N.
Variable per_auth : nat.
Notation read_output := (read_output bd hd idof per_auth).
Notation addr_of := (addr_of idof).
Notation layout0 := (layout0 bd hd).
Notation layout1 := (layout1 bd hd).

Definition headers (l : list rec) : list chdr := flat_map (fun r => match r with RHeader h => [h] | _ => [] end) l.
Lemma headers_batches bs l : headers (map RBatch bs ++ l) = headers l.
Proof. induction bs as [|b bs IH]; simpl; auto. Qed.

(** The conditions of [importable] on one group. *)
Definition Q (m : emeta) (final : N) (h : chdr) (bs : list N) : Prop :=
  sd_hdrs (ch_sub h) <> [] /\ sd_epoch (ch_sub h) = m_epoch m /\
  (named (ch_sub h) <> [] -> forall oh, In oh (sd_hdrs (ch_sub h)) -> addr_of m (oh_author oh) <> None) /\
  (length bs <= cap_of per_auth m)%nat /\ ch_num h <= final.
Definition T (m : emeta) (bs : list N) : Prop := (length bs <= cap_of per_auth m)%nat.

Lemma asm0 : asm_inv bd [] [].
Proof. split; [|split]; [intros d b C; discriminate C|intros ? ? []|intros ? ? ? ? []]. Qed.
Lemma fits_authors (addr : N -> option N) hs bs : Forall2 (fits bd addr) hs bs -> forall oh, In oh hs -> addr (oh_author oh) <> None.
Proof.
  induction 1 as [|h cb hs cbs [X _] _ IH]; intros oh Ho; [destruct Ho|]. destruct Ho as [->|Ho]; auto. congruence.
Qed.
Lemma named_batch_set s : named s = [] -> batch_set s = [].
Proof.
  intros H. destruct (batch_set s) as [|d l] eqn:E; auto. exfalso.
  assert (In d (named s)) as Z by (apply batch_set_in; rewrite E; left; auto). rewrite H in Z. destruct Z.
Qed.

(* ---------- version 1, one output ---------- *)
Lemma iter1_inv addr cap e recs o rest : iter_to_output bd addr hd cap e recs = ROk o rest ->
  exists bs, recs = RHeader (header_of o) :: map RBatch bs ++ rest /\ check_expectation hd (header_of o) e = true /\
    map bd bs = batch_set (out_sub o) /\ (length bs <= cap)%nat /\
    (named (out_sub o) <> [] -> forall oh, In oh (sd_hdrs (out_sub o)) -> addr (oh_author oh) <> None).
Proof.
  unfold iter_to_output. destruct recs as [|[m|h|b|] recs]; intros H; try discriminate H.
  destruct (check_expectation hd h e) eqn:Ee; [|discriminate H].
  destruct (Nat.eqb (num_primary_batches (ch_sub h)) 0) eqn:En.
  - injection H as <- <-. apply named_nil_len in En. exists []. unfold header_of; simpl.
    rewrite (named_batch_set _ En). split; [destruct h; auto|]. split; [destruct h; auto|]. split; auto. split; [lia|congruence].
  - assert (Hn : named (ch_sub h) <> []). { intro C. apply named_nil_len in C. congruence. }
    destruct (cap <? _)%nat eqn:Ec; [discriminate H|]. apply Nat.ltb_ge in Ec.
    destruct (read_batches _ _ _ _ _) as [[[avail refd] rest']|] eqn:R; [|discriminate H].
    destruct (assemble _ _ _ _ _ _) as [bs|] eqn:A; [|discriminate H]. injection H as <- <-.
    destruct (read_batches_sound _ _ _ _ _ _ _ _ asm0 R) as [I [V [used [U [W [t Et]]]]]].
    destruct (assemble_ok _ _ _ _ _ [] _ I A) as [new [E2 [Fn [Un Vn]]]]. simpl in E2; subst new.
    assert (M : map bd used = batch_set (ch_sub h)).
    { destruct rest' as [|r rest']; [|apply W; discriminate].
      assert (t = []) as ->; [|rewrite app_nil_r in Et; auto].
      destruct t as [|d t]; auto. exfalso.
      assert (Hd : In d (named (ch_sub h))) by (apply batch_set_in; rewrite Et; apply in_app_iff; simpl; auto).
      unfold named in Hd. rewrite <- (named_digests _ _ _ _ Fn) in Hd.
      apply in_map_iff in Hd. destruct Hd as [b [Eb Hb]].
      destruct (Vn b Hb) as [[]|[k G]]. destruct (V _ _ G) as [C|Hi]; [discriminate C|].
      rewrite U, app_nil_r in Hi. apply in_map_iff in Hi. destruct Hi as [b' [Z Hi]]. injection Z as ->.
      pose proof (batch_set_sorted (ch_sub h)) as S. rewrite Et in S.
      assert (ND : NoDup (map bd used ++ d :: t)).
      { clear - S. induction S as [|x l S IH F]; constructor; auto. intros C. rewrite Forall_forall in F. apply F in C. lia. }
      apply NoDup_app_elim in ND. destruct ND as [_ [_ D]]. apply (D d); [rewrite <- Eb; apply in_map; auto|left; auto]. }
    exists used. split; [rewrite U; destruct h; auto|]. split; [destruct h; auto|]. split; auto.
    split; [rewrite <- (map_length bd used), M; auto|]. simpl. intros _. apply (fits_authors addr _ _ Fn).
Qed.

Lemma iter1_ok addr cap e h bs rest : check_expectation hd h e = true -> map bd bs = batch_set (ch_sub h) ->
  (length bs <= cap)%nat -> (named (ch_sub h) <> [] -> forall oh, In oh (sd_hdrs (ch_sub h)) -> addr (oh_author oh) <> None) ->
  exists o, iter_to_output bd addr hd cap e (RHeader h :: map RBatch bs ++ rest) = ROk o rest /\ header_of o = h.
Proof.
  intros He Hb Hc Ha. unfold iter_to_output. rewrite He.
  destruct (Nat.eqb (num_primary_batches (ch_sub h)) 0) eqn:En.
  - apply named_nil_len in En. apply named_batch_set in En. rewrite En in Hb. destruct bs; [|discriminate Hb].
    eexists. split; [reflexivity|]. destruct h; auto.
  - assert (Hn : named (ch_sub h) <> []). { intro C. apply named_nil_len in C. congruence. }
    rewrite <- Hb, map_length. destruct (cap <? length bs)%nat eqn:Ec; [apply Nat.ltb_lt in Ec; lia|].
    set (mm := map (fun b => (bd b, b)) bs).
    assert (E1 : map bd bs = map fst mm) by (unfold mm; rewrite map_map; auto).
    assert (E2 : map RBatch bs = map (fun p => RBatch (snd p)) mm) by (unfold mm; rewrite map_map; auto).
    destruct (read_batches_written bd mm rest [] []) as [avail [refd [R [K1 [_ [K3 [K4 _]]]]]]].
    { destruct (named (ch_sub h)) as [|d l] eqn:El; [congruence|]. intros C.
      assert (In d (batch_set (ch_sub h))) as Z by (apply batch_set_in; rewrite El; left; auto).
      rewrite <- Hb, E1, C in Z. destruct Z. }
    { intros p Hp. unfold mm in Hp. apply in_map_iff in Hp. destruct Hp as [b [<- _]]. auto. }
    rewrite E2, E1, R.
    assert (I : asm_inv bd avail []).
    { split; [|split]; [|intros ? ? []|intros ? ? ? ? []]. intros d b G. destruct (K3 _ _ G) as [Hi|C]; [|discriminate C].
      unfold mm in Hi. apply in_map_iff in Hi. destruct Hi as [b' [Z _]]. injection Z as <- <-. auto. }
    assert (Hkeys : forall d, In d (named (ch_sub h)) -> In d (map fst mm)).
    { intros d Hd. rewrite <- E1, Hb. apply batch_set_in; auto. }
    destruct (assemble_total bd addr (fun d => memN d refd) (sd_hdrs (ch_sub h)) avail [] I) as [cs A].
    { intros oh Ho. apply Ha; auto. }
    { intros d Hd. left. apply K4, Hkeys, Hd. }
    { intros d Hd. apply memN_In, K1, Hkeys, Hd. }
    rewrite A. eexists. split; [reflexivity|]. destruct h; auto.
Qed.

(* ---------- version 0, one output ---------- *)
Definition collected (bs : list N) (avail : list (N * N)) : list (N * N) := fold_left (fun a b => amap_put (bd b) b a) bs avail.
Lemma collect_ok cap : forall bs cnt avail h rest, (cnt + length bs <= cap)%nat ->
  legacy_collect bd cap cnt (map RBatch bs ++ RHeader h :: rest) avail = Some (Some (h, collected bs avail, rest)).
Proof.
  induction bs as [|b bs IH]; intros cnt avail h rest H; auto. cbn [map app legacy_collect]. simpl in H.
  destruct (cap <? S cnt)%nat eqn:E; [apply Nat.ltb_lt in E; lia|]. rewrite IH by lia. auto.
Qed.
Lemma collect_end cap : forall bs cnt avail, (cnt + length bs <= cap)%nat -> legacy_collect bd cap cnt (map RBatch bs) avail = Some None.
Proof.
  induction bs as [|b bs IH]; intros cnt avail H; auto. cbn [map legacy_collect]. simpl in H.
  destruct (cap <? S cnt)%nat eqn:E; [apply Nat.ltb_lt in E; lia|]. rewrite IH by lia. auto.
Qed.
Lemma collect_inv cap : forall recs cnt avail x, (cnt <= cap)%nat -> legacy_collect bd cap cnt recs avail = Some x ->
  match x with
  | None => exists bs, recs = map RBatch bs /\ (cnt + length bs <= cap)%nat
  | Some (h, avail', rest) => exists bs, recs = map RBatch bs ++ RHeader h :: rest /\ avail' = collected bs avail /\ (cnt + length bs <= cap)%nat
  end.
Proof.
  induction recs as [|[m|h|b|] recs IH]; intros cnt avail x Hc H; cbn [legacy_collect] in H; try discriminate H.
  - injection H as <-. exists []. simpl. split; auto. lia.
  - injection H as <-. exists []. simpl. repeat (split; auto). lia.
  - destruct (cap <? S cnt)%nat eqn:E; [discriminate H|]. apply Nat.ltb_ge in E. specialize (IH _ _ _ E H).
    destruct x as [[[h avail'] rest]|].
    + destruct IH as [bs [-> [-> L]]]. exists (b :: bs). simpl. repeat (split; auto). lia.
    + destruct IH as [bs [-> L]]. exists (b :: bs). simpl. split; auto. lia.
Qed.
Lemma amap_del_keys d m : map fst (amap_del d m) = filter (fun k => negb (k =? d)) (map fst m).
Proof. unfold amap_del. induction m as [|[k v] m IH]; simpl; auto. destruct (negb (k =? d)); simpl; rewrite IH; auto. Qed.
Lemma amap_put_keys d b m : NoDup (map fst m) -> NoDup (map fst (amap_put d b m)) /\
  (forall k, In k (map fst (amap_put d b m)) <-> k = d \/ In k (map fst m)).
Proof.
  intros H. unfold amap_put. cbn [map fst]. rewrite amap_del_keys. split.
  - constructor; [|apply NoDup_filter; auto]. intros C. apply filter_In in C. rewrite N.eqb_refl in C. destruct C as [_ C]; discriminate C.
  - intros k. simpl. rewrite filter_In. destruct (N.eqb_spec k d) as [E|E]; simpl; split; intros H'.
    + left; exact E.
    + left; symmetry; exact E.
    + destruct H' as [H'|[H' _]]; [left; symmetry; exact H'|right; exact H'].
    + destruct H' as [H'|H']; [contradiction|right; split; auto].
Qed.
Lemma collected_facts bs : forall avail, asm_inv bd avail [] -> NoDup (map fst avail) ->
  asm_inv bd (collected bs avail) [] /\ NoDup (map fst (collected bs avail)) /\
  (forall d, In d (map fst (collected bs avail)) <-> In d (map fst avail) \/ In d (map bd bs)).
Proof.
  induction bs as [|b bs IH]; intros avail I ND; simpl; [split; auto; split; auto; intros; tauto|].
  assert (I' : asm_inv bd (amap_put (bd b) b avail) []).
  { split; [|split]; [|intros ? ? []|intros ? ? ? ? []]. intros d b'. rewrite amap_put_get.
    destruct (d =? bd b)%N eqn:E; [|apply I]. intros H'; injection H' as <-. apply N.eqb_eq in E; auto. }
  destruct (amap_put_keys (bd b) b avail ND) as [ND' K]. destruct (IH _ I' ND') as [A [B C]].
  split; auto. split; auto. intros d. rewrite C, K. cbn [map In]. split; [intros [[Z|Z]|Z]|intros [Z|[Z|Z]]]; auto.
Qed.
Lemma amap_get_keys d m : (exists b, amap_get d m = Some b) <-> In d (map fst m).
Proof.
  induction m as [|[k v] t IH]; simpl; [split; [intros [b E]; discriminate E|tauto]|].
  destruct (N.eqb_spec k d) as [E|E]; [split; eauto|]. rewrite IH. split; auto. intros [C|C]; [contradiction|auto].
Qed.
Lemma batch_set_nodup s : NoDup (batch_set s).
Proof.
  pose proof (batch_set_sorted s) as S. induction S as [|x l S IH F]; constructor; auto.
  intros C. rewrite Forall_forall in F. apply F in C. lia.
Qed.

Lemma iter0_inv addr cap e recs o rest : iter_to_output_legacy bd hd addr cap e recs = ROk o rest ->
  exists bs, recs = map RBatch bs ++ RHeader (header_of o) :: rest /\ check_expectation hd (header_of o) e = true /\
    (forall d, In d (named (out_sub o)) <-> In d (map bd bs)) /\ (length bs <= cap)%nat /\
    (named (out_sub o) <> [] -> forall oh, In oh (sd_hdrs (out_sub o)) -> addr (oh_author oh) <> None).
Proof.
  unfold iter_to_output_legacy. destruct (legacy_collect _ _ _ _ _) as [[[[h avail] rest']|]|] eqn:L; intros H; try discriminate H.
  apply collect_inv in L; [|lia]. destruct L as [bs [-> [Ea Lc]]]. simpl in Lc.
  destruct (collected_facts bs [] asm0) as [I [ND K]]; [constructor|]. rewrite <- Ea in *.
  destruct (check_expectation hd h e) eqn:Ee; [|discriminate H].
  destruct (forallb _ _) eqn:Fb; [|discriminate H]. destruct (_ <? length avail)%nat eqn:Lb; [discriminate H|].
  apply Nat.ltb_ge in Lb. rewrite forallb_forall in Fb. rewrite batch_digests_named in Fb.
  assert (Same : forall d, In d (named (ch_sub h)) <-> In d (map bd bs)).
  { assert (In1 : forall d, In d (named (ch_sub h)) -> In d (map fst avail)).
    { intros d Hd. apply amap_get_keys. specialize (Fb d Hd). destruct (amap_get d avail); eauto. discriminate Fb. }
    intros d. split; intros Hd.
    - apply In1, K in Hd. destruct Hd as [[]|Hd]; auto.
    - apply batch_set_in. apply (NoDup_length_incl (batch_set_nodup (ch_sub h)) (l' := map fst avail)).
      + rewrite map_length. auto.
      + intros k Hk. apply In1, batch_set_in; auto.
      + apply K. auto. }
  destruct (Nat.eqb (num_primary_batches (ch_sub h)) 0) eqn:En.
  - injection H as <- <-. apply named_nil_len in En. exists bs. unfold header_of; simpl.
    split; [destruct h; auto|]. split; [destruct h; auto|]. split; [exact Same|]. split; [exact Lc|]. intros C; contradiction.
  - destruct (assemble _ _ _ _ _ _) as [cs|] eqn:A; [|discriminate H]. injection H as <- <-.
    destruct (assemble_ok _ _ _ _ _ [] _ I A) as [new [E2 [Fn _]]]. simpl in E2; subst new.
    exists bs. split; [destruct h; auto|]. split; [destruct h; auto|]. split; auto. split; auto.
    intros _. apply (fits_authors addr _ _ Fn).
Qed.
Lemma iter0_ok addr cap e h bs rest : check_expectation hd h e = true ->
  (forall d, In d (named (ch_sub h)) <-> In d (map bd bs)) ->
  (length bs <= cap)%nat -> (named (ch_sub h) <> [] -> forall oh, In oh (sd_hdrs (ch_sub h)) -> addr (oh_author oh) <> None) ->
  exists o, iter_to_output_legacy bd hd addr cap e (map RBatch bs ++ RHeader h :: rest) = ROk o rest /\ header_of o = h.
Proof.
  intros He Same Hc Ha. unfold iter_to_output_legacy. rewrite collect_ok by (simpl; lia). rewrite He.
  destruct (collected_facts bs [] asm0) as [I [ND K]]; [constructor|]. set (avail := collected bs []) in *.
  assert (Fb : forallb (fun d => match amap_get d avail with Some _ => true | None => false end) (batch_digests (ch_sub h)) = true).
  { apply forallb_forall. intros d Hd. rewrite batch_digests_named in Hd. apply Same in Hd.
    destruct (proj2 (amap_get_keys d avail)) as [b ->]; auto. apply K. auto. }
  rewrite Fb.
  assert (Lb : (length (batch_set (ch_sub h)) <? length avail)%nat = false).
  { apply Nat.ltb_ge. rewrite <- (map_length fst avail). apply NoDup_incl_length; auto.
    intros k Hk. apply batch_set_in, Same. apply K in Hk. destruct Hk as [[]|Hk]; auto. }
  rewrite Lb. destruct (Nat.eqb (num_primary_batches (ch_sub h)) 0) eqn:En; [eexists; split; [reflexivity|destruct h; auto]|].
  assert (Hn : named (ch_sub h) <> []). { intro C. apply named_nil_len in C. congruence. }
  destruct (assemble_total bd addr (fun d => memN d (batch_set (ch_sub h))) (sd_hdrs (ch_sub h)) avail [] I) as [cs A].
  { intros oh Ho. apply Ha; auto. }
  { intros d Hd. left. apply amap_get_keys, K. right. apply Same. exact Hd. }
  { intros d Hd. apply memN_In, batch_set_in. exact Hd. }
  rewrite A. eexists. split; [reflexivity|]. destruct h; auto.
Qed.

(* ---------- the loop ---------- *)
Definition ex_of (e : option N) : expectation := match e with None => ENone | Some p => EParent p end.
Lemma check_ex h e : check_expectation hd h (ex_of e) = true <-> (forall p, e = Some p -> ch_parent h = p).
Proof.
  destruct e as [p|]; simpl.
  - rewrite N.eqb_eq. split; [intros -> q E; injection E; auto|intros H; apply H; auto].
  - split; auto. intros _ p E; discriminate E.
Qed.
Lemma save_ok m (acc : list output) o n : sd_hdrs (out_sub o) <> [] -> sd_epoch (out_sub o) = m_epoch m -> out_num o = n ->
  n = m_start m + N.of_nat (length acc) -> log_save (m_epoch m) (m_start m) acc o = SOk (acc ++ [o]).
Proof.
  intros H1 H2 H3 H4. unfold log_save. destruct (sd_hdrs (out_sub o)); [congruence|]. rewrite H2, N.eqb_refl. cbn [negb].
  replace (N.to_nat (out_num o - m_start m)) with (length acc) by lia. rewrite Nat.ltb_irrefl, Nat.eqb_refl. auto.
Qed.
Lemma save_inv m acc o l' : log_save (m_epoch m) (m_start m) acc o = SOk l' ->
  sd_hdrs (out_sub o) <> [] /\ sd_epoch (out_sub o) = m_epoch m.
Proof.
  unfold log_save. destruct (sd_hdrs (out_sub o)); intros H; [discriminate H|]. split; [congruence|].
  destruct (N.eqb_spec (sd_epoch (out_sub o)) (m_epoch m)); auto. discriminate H.
Qed.

Lemma forward1 ver m final e n l : ver <> 0 -> layout1 (Q m final) e n l ->
  forall acc fuel, (length l < fuel)%nat -> n = m_start m + N.of_nat (length acc) ->
  exists os, import_loop bd hd idof per_auth fuel ver m final (ex_of e) l acc = IOk m (acc ++ os) /\ map header_of os = headers l.
Proof.
  intros Hv L. induction L as [e n|e n h bs rest P1 P2 P3 [Q1 [Q2 [Q3 [Q4 Q5]]]] P5 L IH]; intros acc fuel Hf Hn; (destruct fuel as [|fuel]; [lia|]).
  - exists []. rewrite app_nil_r. cbn [import_loop]. unfold ImpModel.read_output. rewrite (proj2 (N.eqb_neq _ _) Hv). auto.
  - cbn [import_loop]. unfold ImpModel.read_output. rewrite (proj2 (N.eqb_neq _ _) Hv).
    destruct (iter1_ok (addr_of m) (cap_of per_auth m) (ex_of e) h bs rest) as [o [R Eo]]; auto; [apply check_ex; auto|].
    rewrite R. assert (En : out_num o = ch_num h) by (rewrite <- Eo; auto). assert (Es : out_sub o = ch_sub h) by (rewrite <- Eo; auto).
    rewrite En. destruct (final <? ch_num h) eqn:F; [apply N.ltb_lt in F; lia|].
    rewrite (save_ok m acc o n); try congruence. rewrite Eo.
    destruct (IH (acc ++ [o]) fuel) as [os [Z1 Z2]].
    + simpl in Hf. rewrite app_length in Hf. lia.
    + rewrite app_length. simpl. lia.
    + exists (o :: os). rewrite <- app_assoc in Z1. split; [exact Z1|]. simpl. rewrite Eo, Z2. f_equal. rewrite headers_batches. auto.
Qed.
Lemma forward0 m final e n l : layout0 (Q m final) (T m) e n l ->
  forall acc fuel, (length l < fuel)%nat -> n = m_start m + N.of_nat (length acc) ->
  exists os, import_loop bd hd idof per_auth fuel 0 m final (ex_of e) l acc = IOk m (acc ++ os) /\ map header_of os = headers l.
Proof.
  intros L. induction L as [e n bs Ht|e n bs h rest P1 P2 P3 [Q1 [Q2 [Q3 [Q4 Q5]]]] L IH]; intros acc fuel Hf Hn; (destruct fuel as [|fuel]; [lia|]).
  - exists []. rewrite app_nil_r. cbn [import_loop]. unfold ImpModel.read_output. cbn [N.eqb].
    unfold iter_to_output_legacy. rewrite collect_end by (simpl; exact Ht). split; auto.
    rewrite <- (app_nil_r (map RBatch bs)), headers_batches. auto.
  - cbn [import_loop]. unfold ImpModel.read_output. cbn [N.eqb].
    destruct (iter0_ok (addr_of m) (cap_of per_auth m) (ex_of e) h bs rest) as [o [R Eo]]; auto; [apply check_ex; auto|].
    rewrite R. assert (En : out_num o = ch_num h) by (rewrite <- Eo; auto). assert (Es : out_sub o = ch_sub h) by (rewrite <- Eo; auto).
    rewrite En. destruct (final <? ch_num h) eqn:F; [apply N.ltb_lt in F; lia|].
    rewrite (save_ok m acc o n); try congruence. rewrite Eo.
    destruct (IH (acc ++ [o]) fuel) as [os [Z1 Z2]].
    + rewrite app_length in Hf. simpl in Hf. lia.
    + rewrite app_length. simpl. lia.
    + exists (o :: os). rewrite <- app_assoc in Z1. split; [exact Z1|]. rewrite headers_batches. cbn. rewrite Eo, Z2. auto.
Qed.

Lemma numbered_tail n x h l : N.of_nat (length (filter is_header x)) = 0 -> numbered n (x ++ RHeader h :: l) -> numbered (n + 1) l.
Proof.
  intros Hx H a g b ->. rewrite (H (x ++ RHeader h :: a) g b) by (rewrite <- app_assoc; auto).
  rewrite rank_app. cbn [filter is_header length]. lia.
Qed.
Lemma numbered_tail2 n bs l : numbered n (map RBatch bs ++ l) -> numbered n l.
Proof.
  intros H a g b ->. rewrite (H (map RBatch bs ++ a) g b) by (rewrite <- app_assoc; auto). rewrite rank_app, rank_batches. lia.
Qed.

Lemma backward1 ver m final : ver <> 0 -> forall fuel e n l acc l' m', numbered n l -> n = m_start m + N.of_nat (length acc) ->
  import_loop bd hd idof per_auth fuel ver m final (ex_of e) l acc = IOk m' l' -> layout1 (Q m final) e n l /\ no_lead l.
Proof.
  intros Hv. induction fuel as [|fuel IH]; intros e n l acc l' m' Hnum Hn H; [discriminate H|].
  cbn [import_loop] in H. unfold ImpModel.read_output in H. rewrite (proj2 (N.eqb_neq _ _) Hv) in H.
  destruct (iter_to_output _ _ _ _ _ _) as [| |o rest] eqn:R; try discriminate H.
  - destruct l as [|[x|h|b|] l]; try discriminate R; [split; [constructor|intros b t E; discriminate E]|].
    exfalso. cbn in R. destruct (check_expectation _ _ _); [|discriminate R]. cbv zeta in R.
    repeat match type of R with (if ?c then _ else _) = _ => destruct c; try discriminate R end. destruct (read_batches _ _ _ _ _) as [[[? ?] ?]|]; [|discriminate R]. destruct (assemble _ _ _ _ _ _); discriminate R.
  - destruct (final <? out_num o) eqn:F; [discriminate H|]. apply N.ltb_ge in F.
    destruct (log_save _ _ acc o) as [| |l1] eqn:S; try discriminate H.
    destruct (iter1_inv _ _ _ _ _ _ R) as [bs [-> [C [M [Lc Ha]]]]]. destruct (save_inv _ _ _ _ S) as [S1 S2].
    pose proof (Hnum [] (header_of o) (map RBatch bs ++ rest) eq_refl) as Hn1. simpl in Hn1. 
    assert (En : out_num o = n) by lia.
    rewrite (save_ok m acc o n S1 S2 En Hn) in S. injection S as <-.
    change (EParent (digest_of hd (header_of o))) with (ex_of (Some (digest_of hd (header_of o)))) in H.
    destruct (IH (Some (digest_of hd (header_of o))) (n + 1) rest (acc ++ [o]) l' m') as [L N1]; auto.
    { apply (numbered_tail2 _ bs). apply (numbered_tail n [] (header_of o)); auto. }
    { rewrite app_length. simpl. lia. }
    split; [|intros b t E; discriminate E]. constructor; auto.
    + apply check_ex; auto.
    + unfold Q. simpl. repeat (split; auto).
Qed.
Lemma backward0 m final : forall fuel e n l acc l' m', numbered n l -> n = m_start m + N.of_nat (length acc) ->
  import_loop bd hd idof per_auth fuel 0 m final (ex_of e) l acc = IOk m' l' -> layout0 (Q m final) (T m) e n l.
Proof.
  induction fuel as [|fuel IH]; intros e n l acc l' m' Hnum Hn H; [discriminate H|].
  cbn [import_loop] in H. unfold ImpModel.read_output in H. cbn [N.eqb] in H.
  destruct (iter_to_output_legacy _ _ _ _ _ _) as [| |o rest] eqn:R; try discriminate H.
  - unfold iter_to_output_legacy in R. destruct (legacy_collect _ _ _ _ _) as [[[[h avail] rest']|]|] eqn:L; try discriminate R.
    + exfalso. destruct (check_expectation _ _ _); [|discriminate R]. destruct (forallb _ _); [|discriminate R].
      destruct (_ <? _)%nat; [discriminate R|]. destruct (Nat.eqb _ _); [discriminate R|]. destruct (assemble _ _ _ _ _ _); discriminate R.
    + apply collect_inv in L; [|lia]. destruct L as [bs [-> L]]. constructor. exact L.
  - destruct (final <? out_num o) eqn:F; [discriminate H|]. apply N.ltb_ge in F.
    destruct (log_save _ _ acc o) as [| |l1] eqn:S; try discriminate H.
    destruct (iter0_inv _ _ _ _ _ _ R) as [bs [-> [C [M [Lc Ha]]]]]. destruct (save_inv _ _ _ _ S) as [S1 S2].
    pose proof (Hnum (map RBatch bs) (header_of o) rest eq_refl) as Hn1. rewrite rank_batches in Hn1. cbn [header_of ch_num] in Hn1.
    assert (En : out_num o = n) by lia.
    rewrite (save_ok m acc o n S1 S2 En Hn) in S. injection S as <-.
    change (EParent (digest_of hd (header_of o))) with (ex_of (Some (digest_of hd (header_of o)))) in H.
    constructor; auto.
    + apply check_ex; auto.
    + unfold Q. simpl. repeat (split; auto).
    + apply (IH (Some (digest_of hd (header_of o))) (n + 1) rest (acc ++ [o]) l' m'); auto.
      * apply (numbered_tail n (map RBatch bs) (header_of o)); auto. apply rank_batches.
      * rewrite app_length. simpl. lia.
Qed.

(* ---------- importable, group by group ---------- *)
Lemma batch_count bs : length (filter is_batch (map RBatch bs)) = length bs.
Proof. induction bs as [|b bs IH]; simpl; auto. Qed.
Lemma in_split_header (l : list rec) h : In (RHeader h) l -> exists a b, l = a ++ RHeader h :: b.
Proof. apply in_split. Qed.

Lemma importable_Q1 ver m final l : importable idof per_auth ver m final l ->
  forall a h b, l = a ++ RHeader h :: b -> Q m final h (lead b).
Proof.
  intros [I1 I2 I3 I4 I5 I6] a h b E. assert (Hi : In (RHeader h) l) by (rewrite E; apply in_app_iff; simpl; auto).
  split; auto. split; auto. split; [intros Hn oh Ho; eapply I3; eauto|]. split; auto.
  rewrite <- batch_count. apply (I4 (a ++ [RHeader h]) _ (after b)).
  - rewrite <- app_assoc, E. simpl. rewrite <- (lead_after b). auto.
  - apply batches_no_header.
Qed.
Lemma lead_count l : plain l -> no_header l -> length (filter is_batch l) = length (lead l).
Proof. intros Hp Hn. rewrite (plain_batch_only l Hp Hn) at 1. apply batch_count. Qed.
Lemma importable_Q0 m final l : importable idof per_auth 0 m final l -> plain l ->
  (forall a h b, l = a ++ RHeader h :: b -> Q m final h (tail_lead a)) /\ T m (tail_lead l).
Proof.
  intros [I1 I2 I3 I4 I5 I6] Hp.
  assert (K : forall a, plain a -> (exists b, l = a ++ b) -> (length (tail_lead a) <= cap_of per_auth m)%nat).
  { intros a Pa [b E]. unfold tail_lead.
    assert (exists a1, a = a1 ++ tailr a) as [a1 Ea].
    { destruct (tailr_split a) as [[_ Z]|[a1 [g Z]]]; [exists []; rewrite Z; auto|]. exists (a1 ++ [RHeader g]). rewrite <- app_assoc. exact Z. }
    rewrite <- lead_count; [|rewrite Ea in Pa; apply plain_app in Pa; tauto|apply tailr_no].
    apply (I4 a1 _ b); [rewrite app_assoc, <- Ea; auto|apply tailr_no]. }
  split.
  - intros a h b E. assert (Hi : In (RHeader h) l) by (rewrite E; apply in_app_iff; simpl; auto).
    split; auto. split; auto. split; [intros Hn oh Ho; eapply I3; eauto|]. split; auto.
    apply K; [rewrite E in Hp; apply plain_app in Hp; tauto|eauto].
  - apply K; auto. exists []. rewrite app_nil_r. auto.
Qed.

Lemma stretch_cap (c : nat) l : plain l ->
  (forall a g b, l = a ++ map RBatch g ++ b -> (length g <= c)%nat) ->
  forall a g b, l = a ++ g ++ b -> no_header g -> (length (filter is_batch g) <= c)%nat.
Proof.
  intros Hp H a g b E Hg. assert (Pg : plain g) by (rewrite E in Hp; apply plain_app in Hp; destruct Hp as [_ Hp]; apply plain_app in Hp; tauto).
  rewrite lead_count by auto. apply (H a _ b). rewrite <- (plain_batch_only g Pg Hg). auto.
Qed.

Lemma layout1_importable ver m final e n l : ver <> 0 -> layout1 (Q m final) e n l -> importable idof per_auth ver m final l.
Proof.
  intros Hv L. destruct (layout1_clean bd hd (fun _ => {| m_epoch := 0; m_start := 0; m_state := 0; m_cnum := 0; m_chash := 0; m_auth := [] |}) idof ver _ _ _ _ Hv L) as [Hp [Hl [_ HQ]]].
  assert (HQ' : forall h, In (RHeader h) l -> exists bs, Q m final h bs).
  { intros h Hi. apply in_split in Hi. destruct Hi as [a [b E]]. exists (lead b). eapply HQ; eauto. }
  constructor.
  - intros h Hi. destruct (HQ' h Hi) as [bs Z]. apply Z.
  - intros h Hi. destruct (HQ' h Hi) as [bs Z]. apply Z.
  - intros h oh Hi Hn Ho. destruct (HQ' h Hi) as [bs [_ [_ [Z _]]]]. auto.
  - apply stretch_cap; auto. clear - L. induction L as [e n|e n h bs rest P1 P2 P3 [Q1 [Q2 [Q3 [Q4 Q5]]]] P5 L IH]; intros a g b E.
    + destruct a; [|discriminate E]. destruct g; [|discriminate E]. simpl. lia.
    + destruct (stretch_side [] h (map RBatch bs ++ rest) a (map RBatch g) b E (batches_no_header g)) as [Z|[[b' Z]|[a' Z]]].
      * destruct g; [simpl; lia|discriminate Z].
      * destruct a; [|discriminate Z]. destruct g; [simpl; lia|discriminate Z].
      * assert (rest = [] \/ exists h' r', rest = RHeader h' :: r') as [->|[h' [r' ->]]] by (inversion L; subst; eauto).
        -- rewrite app_nil_r in Z. apply (f_equal (@length rec)) in Z. rewrite !app_length, !map_length in Z. lia.
        -- destruct (stretch_side (map RBatch bs) h' r' a' (map RBatch g) b Z (batches_no_header g)) as [W|[[b' W]|[a2 W]]].
           ++ destruct g; [simpl; lia|discriminate W].
           ++ apply (f_equal (@length rec)) in W. rewrite !app_length, !map_length in W. lia.
           ++ apply (IH (RHeader h' :: a2) g b). simpl. congruence.
  - intros h Hi. destruct (HQ' h Hi) as [bs Z]. apply Z.
  - intros _. exact Hl.
Qed.
Lemma layout0_importable m final e n l : layout0 (Q m final) (T m) e n l -> importable idof per_auth 0 m final l.
Proof.
  intros L. destruct (layout0_clean bd hd (fun _ => {| m_epoch := 0; m_start := 0; m_state := 0; m_cnum := 0; m_chash := 0; m_auth := [] |}) idof _ _ _ _ _ L) as [Hp [_ [HQ _]]].
  assert (HQ' : forall h, In (RHeader h) l -> exists bs, Q m final h bs).
  { intros h Hi. apply in_split in Hi. destruct Hi as [a [b E]]. exists (tail_lead a). eapply HQ; eauto. }
  constructor.
  - intros h Hi. destruct (HQ' h Hi) as [bs Z]. apply Z.
  - intros h Hi. destruct (HQ' h Hi) as [bs Z]. apply Z.
  - intros h oh Hi Hn Ho. destruct (HQ' h Hi) as [bs [_ [_ [Z _]]]]. auto.
  - apply stretch_cap; auto. clear - L. induction L as [e n bs Ht|e n bs h rest P1 P2 P3 [Q1 [Q2 [Q3 [Q4 Q5]]]] L IH]; intros a g b E.
    + apply (f_equal (@length rec)) in E. rewrite !app_length, !map_length in E. unfold T in Ht. lia.
    + destruct (stretch_side (map RBatch bs) h rest a (map RBatch g) b E (batches_no_header g)) as [Z|[[b' Z]|[a' Z]]].
      * destruct g; [simpl; lia|discriminate Z].
      * apply (f_equal (@length rec)) in Z. rewrite !app_length, !map_length in Z. lia.
      * apply (IH a' g b Z).
  - intros h Hi. destruct (HQ' h Hi) as [bs Z]. apply Z.
  - congruence.
Qed.
End P.
