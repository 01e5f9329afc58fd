(* Proofs about TelModel.v *)
From Verif Require Import Util TelModel TelSpec.
Local Open Scope N_scope.

Lemma eqb_bytes_eq a b : eqb_bytes a b = true <-> a = b.
Proof.
  revert b; induction a as [|x a IH]; intros [|y b]; simpl; try (split; congruence).
  rewrite andb_true_iff, N.eqb_eq, IH. split; [intros [-> ->]; auto|intros H; inversion H; auto].
Qed.

Lemma calls0_iff d sel : length sel = 4%nat ->
  (firstn 4 d = sel <-> calls0 d sel).
Proof.
  intros Hl. unfold calls0. split.
  - intros H. exists (skipn 4 d). rewrite <- H. symmetry. apply firstn_skipn.
  - intros [r ->]. rewrite firstn_app, Hl, firstn_all2 by lia. simpl. apply app_nil_r.
Qed.

Lemma calls0_skip d sel : length sel = 4%nat -> calls0 d sel -> d = sel ++ skipn 4 d.
Proof.
  intros Hl [r ->]. f_equal. rewrite skipn_app, Hl, skipn_all2 by lia. reflexivity.
Qed.

Lemma skip_sel (sel r : list N) : length sel = 4%nat -> skipn 4 (sel ++ r) = r.
Proof. intros Hl. rewrite skipn_app, Hl, skipn_all2 by lia. reflexivity. Qed.

Lemma slice0 (cd : list N) : (32 <= length cd)%nat ->
  length (slice 0 32 cd) = 32%nat /\ cd = slice 0 32 cd ++ skipn 32 cd.
Proof.
  intros H. unfold slice. simpl skipn. change (32 - 0)%nat with 32%nat. split.
  - apply firstn_length_le; auto.
  - symmetry; apply firstn_skipn.
Qed.

Lemma slice_addr (cd : list N) : slice 12 32 cd = skipn 12 (slice 0 32 cd).
Proof.
  unfold slice. change (32 - 12)%nat with 20%nat. change (skipn 0 cd) with cd.
  change (32 - 0)%nat with 32%nat.
  rewrite firstn_skipn_comm. reflexivity.
Qed.

Lemma skip_add (m n : nat) (l : list N) : skipn m (skipn n l) = skipn (n + m) l.
Proof.
  revert l; induction n as [|n IH]; intros l; simpl; auto. destruct l; simpl; auto.
  apply skipn_nil.
Qed.

Lemma slice32 (cd : list N) : (64 <= length cd)%nat ->
  length (slice 32 64 cd) = 32%nat /\
  cd = slice 0 32 cd ++ slice 32 64 cd ++ skipn 64 cd.
Proof.
  intros H. unfold slice. change (64 - 32)%nat with 32%nat. change (32 - 0)%nat with 32%nat.
  change (skipn 0 cd) with cd. split.
  - rewrite firstn_length_le; auto. rewrite skipn_length. lia.
  - rewrite <- (firstn_skipn 32 cd) at 1. f_equal.
    rewrite <- (firstn_skipn 32 (skipn 32 cd)) at 1. f_equal. rewrite skip_add. reflexivity.
Qed.

Lemma slice_word (w r : list N) : length w = 32%nat -> slice 0 32 (w ++ r) = w.
Proof.
  intros H. unfold slice. change (skipn 0 (w ++ r)) with (w ++ r). change (32 - 0)%nat with 32%nat.
  rewrite firstn_app, H, firstn_all2 by lia. simpl. apply app_nil_r.
Qed.

Lemma slice_word2 (w1 w2 r : list N) : length w1 = 32%nat -> length w2 = 32%nat ->
  slice 32 64 (w1 ++ w2 ++ r) = w2.
Proof.
  intros H1 H2. unfold slice. change (64 - 32)%nat with 32%nat.
  rewrite skipn_app, H1, skipn_all2 by lia. rewrite Nat.sub_diag. cbn [app skipn].
  rewrite firstn_app, H2, firstn_all2 by lia. simpl. apply app_nil_r.
Qed.

Ltac hd := match goal with
  | H : (if ?b then _ else _) = _ |- _ => let E := fresh "E" in destruct b eqn:E
  end.

Section P.
Variable kslot : N -> N -> N.
Variable ovf : N -> N -> N.
Variable faucet : bool.

Notation amt a := (kslot 0 a).
Notation tim a := (kslot 1 a).
Notation role a := (kslot 3 a).

(* ---- what a successful call of the precompile is ---- *)
Inductive ok_case (st : tstate) (i : pinput) : tstate -> tout -> Prop :=
  | ok_mint w : faucet = false -> calls1 (pi_data i) SEL_MINT w ->
      pi_static i = false -> pi_value i = 0 -> pi_caller i = GOV -> 41000 <= pi_gas i ->
      ok_case st i
        (emit (sstore (sstore st (amt GOV) (uint w)) (tim GOV) ((t_now st + TIMELOCK) mod U256_LIM))
              (LMint GOV (uint w) ((t_now st + TIMELOCK) mod U256_LIM))) OUnit
  | ok_claim w a : calls1 (pi_data i) SEL_CLAIM w ->
      pi_static i = false -> pi_value i = 0 -> pi_caller i = GOV -> 25000 <= pi_gas i ->
      a = t_sto st (amt (addr w)) -> a <> 0 -> t_sto st (tim (addr w)) <= t_now st ->
      let st3 := sstore (sstore (balance_incr ovf st (addr w) a) (amt (addr w)) 0) (tim (addr w)) 0 in
      t_sto st3 100 + a < U256_LIM ->
      ok_case st i
        (emit (emit (sstore st3 100 (t_sto st3 100 + a)) (LClaim (addr w) a)) (LTransfer 0 (addr w) a))
        OUnit
  | ok_burn w : calls1 (pi_data i) SEL_BURN w ->
      pi_static i = false -> (pi_value i = 0 \/ pi_target i = PRE) ->
      pi_caller i = GOV -> 8000 <= pi_gas i ->
      uint w <= t_bal st PRE -> uint w <= t_sto st 100 ->
      ok_case st i
        (emit (emit (sstore (if uint w =? 0 then st else set_bal st PRE (t_bal st PRE - uint w)) 100
                            (t_sto st 100 - uint w)) (LBurn (uint w))) (LTransfer PRE 0 (uint w)))
        OUnit
  | ok_supply : calls0 (pi_data i) SEL_TOTAL_SUPPLY -> pi_value i = 0 -> 2100 <= pi_gas i ->
      ok_case st i st (OWord (t_sto st 100))
  | ok_role s v w : faucet = true -> (s = SEL_GRANT /\ v = 1 \/ s = SEL_REVOKE /\ v = 0) ->
      calls1 (pi_data i) s w -> pi_static i = false -> pi_value i = 0 -> pi_caller i = GOV ->
      22000 <= pi_gas i ->
      ok_case st i (sstore st (role (addr w)) v) OUnit
  | ok_has w : faucet = true -> calls1 (pi_data i) SEL_HAS_ROLE w -> pi_value i = 0 ->
      2100 <= pi_gas i ->
      ok_case st i st (OBool ((addr w =? GOV) || negb (t_sto st (role (addr w)) =? 0)))
  | ok_fmint w1 w2 : faucet = true -> calls2 (pi_data i) SEL_FAUCET_MINT w1 w2 ->
      pi_static i = false -> pi_value i = 0 ->
      (pi_caller i = GOV \/ t_sto st (role (pi_caller i)) <> 0) -> 30000 <= pi_gas i ->
      uint w2 <> 0 -> t_sto st 100 + uint w2 < U256_LIM ->
      ok_case st i
        (emit (emit (sstore (balance_incr ovf st (addr w1) (uint w2)) 100
               (t_sto st 100 + uint w2)) (LMint (addr w1) (uint w2) 0))
               (LTransfer 0 (addr w1) (uint w2))) OUnit.

Lemma calls1_of d sel w : length sel = 4%nat ->
  calls0 d sel -> (32 <= length (skipn 4 d))%nat -> w = slice 0 32 (skipn 4 d) -> calls1 d sel w.
Proof.
  intros Hl H0 Hlen ->. destruct (slice0 _ Hlen) as [A B]. split; auto.
  exists (skipn 32 (skipn 4 d)). rewrite (calls0_skip d sel Hl H0) at 1. f_equal. exact B.
Qed.

Lemma be_uint l : be_val l = uint l.
Proof. reflexivity. Qed.

Lemma ok_inv st i st' g o :
  telcoin_precompile kslot ovf faucet st i = ROk st' g o -> ok_case st i st' o.
Proof.
  unfold telcoin_precompile. cbv zeta. intros H.
  hd; [congruence|]. apply Nat.ltb_ge in E.
  hd; [congruence|].
  hd; [congruence|].
  rewrite negb_false_iff in E0, E1.
  assert (L : forall s, eqb_bytes (firstn 4 (pi_data i)) s = true -> length s = 4%nat ->
     calls0 (pi_data i) s).
  { intros s Hs Hl. apply eqb_bytes_eq in Hs. apply calls0_iff; auto. }
  assert (NE : forall s s', eqb_bytes (firstn 4 (pi_data i)) s = true -> eqb_bytes s s' = false ->
     eqb_bytes (firstn 4 (pi_data i)) s' = false).
  { intros s s' Hs Hn. apply eqb_bytes_eq in Hs. rewrite Hs. exact Hn. }
  hd.
  { apply andb_true_iff in E2 as [Ef Es]. apply negb_true_iff in Ef.
    try rewrite (NE _ SEL_TOTAL_SUPPLY Es eq_refl) in E0.
    try rewrite (NE _ SEL_HAS_ROLE Es eq_refl) in E0.
    rewrite ?andb_false_r in E0. simpl in E0.
    try rewrite (NE _ SEL_BURN Es eq_refl) in E1. simpl in E1.
    unfold handle_mint in H. cbv zeta in H. hd; [congruence|]. hd; [congruence|]. hd; [congruence|].
    injection H as <- _ <-. rewrite be_uint.
    apply negb_false_iff in E3. apply Nat.ltb_ge in E4.
    assert (G : pi_caller i = GOV).
    { unfold has_mint_role, has_governance_role in E3. rewrite Ef in E3.
      rewrite orb_false_r in E3. apply N.eqb_eq in E3. exact E3. }
    eapply ok_mint; auto.
    - eapply calls1_of; eauto.
    - apply negb_true_iff; auto.
    - apply N.eqb_eq; auto.
    - apply N.ltb_ge in E2. exact E2. }
  hd.
  { clear E2. rename E3 into Es.
    try rewrite (NE _ SEL_TOTAL_SUPPLY Es eq_refl) in E0.
    try rewrite (NE _ SEL_HAS_ROLE Es eq_refl) in E0.
    rewrite ?andb_false_r in E0. simpl in E0.
    try rewrite (NE _ SEL_BURN Es eq_refl) in E1. simpl in E1.
    unfold handle_claim in H. cbv zeta in H.
    hd; [congruence|]. hd; [congruence|]. hd; [congruence|]. hd; [congruence|]. hd; [congruence|].
    hd; [|congruence].
    injection H as <- _ <-. rewrite be_uint, slice_addr in *. change (uint (skipn 12 ?x)) with (addr x) in *.
    apply negb_false_iff in E3. apply N.eqb_eq in E3. apply Nat.ltb_ge in E4.
    apply N.ltb_ge in E2, E6. apply N.ltb_lt in E7. apply N.eqb_neq in E5.
    eapply (ok_claim st i _ (t_sto st (amt _))); auto.
    - eapply calls1_of; eauto.
    - apply negb_true_iff; auto.
    - apply N.eqb_eq; auto. }
  hd.
  { clear E2 E3. rename E4 into Es.
    try rewrite (NE _ SEL_TOTAL_SUPPLY Es eq_refl) in E0.
    try rewrite (NE _ SEL_HAS_ROLE Es eq_refl) in E0.
    rewrite ?andb_false_r in E0. simpl in E0.
    simpl in E1.
    unfold handle_burn, balance_decr in H. cbv zeta in H.
    hd; [congruence|]. hd; [congruence|]. hd; [congruence|].
    apply negb_false_iff in E3. apply N.eqb_eq in E3. apply Nat.ltb_ge in E4. apply N.ltb_ge in E2.
    rewrite be_uint in *.
    assert (C : calls1 (pi_data i) SEL_BURN (slice 0 32 (skipn 4 (pi_data i)))) by (eapply calls1_of; eauto).
    set (w := slice 0 32 (skipn 4 (pi_data i))) in *.
    assert (K : exists st1, (st1 = if uint w =? 0 then st else set_bal st PRE (t_bal st PRE - uint w)) /\
       uint w <= t_bal st PRE /\
       (if t_sto st1 SUPPLY_SLOT <? uint w then RErr EUnderflow
        else ROk (emit (emit (sstore st1 SUPPLY_SLOT (t_sto st1 SUPPLY_SLOT - uint w)) (LBurn (uint w)))
              (LTransfer PRE 0 (uint w))) 8000 OUnit) = ROk st' g o).
    { destruct (uint w =? 0) eqn:Z; [exists st; split; [auto|split; [apply N.eqb_eq in Z; lia|exact H]]|].
      destruct (t_bal st PRE <? uint w) eqn:B; [congruence|]. apply N.ltb_ge in B.
      eexists; split; [reflexivity|split; [exact B|exact H]]. }
    destruct K as [st1 [Est1 [Hb K]]].
    assert (Hs1 : t_sto st1 SUPPLY_SLOT = t_sto st 100).
    { rewrite Est1. destruct (uint w =? 0); reflexivity. }
    rewrite Hs1 in K. destruct (t_sto st 100 <? uint w) eqn:U; [congruence|]. apply N.ltb_ge in U.
    injection K as <- _ <-. rewrite Est1.
    apply ok_burn; auto.
    - apply negb_true_iff; auto.
    - apply orb_true_iff in E1 as [E1|E1]; apply N.eqb_eq in E1; auto. }
  hd.
  { clear E2 E3 E4. rename E5 into Es.
    try rewrite (NE _ SEL_BURN Es eq_refl) in E1. simpl in E1.
    unfold handle_total_supply in H. hd; [congruence|]. injection H as <- _ <-.
    apply N.ltb_ge in E2. apply ok_supply; auto. apply N.eqb_eq; auto. }
  hd.
  { clear E2 E3 E4 E5. apply andb_true_iff in E6 as [Ef Es].
    try rewrite (NE _ SEL_TOTAL_SUPPLY Es eq_refl) in E0.
    try rewrite (NE _ SEL_HAS_ROLE Es eq_refl) in E0.
    rewrite ?andb_false_r in E0. simpl in E0.
    try rewrite (NE _ SEL_BURN Es eq_refl) in E1. simpl in E1.
    unfold handle_set_role in H. hd; [congruence|]. hd; [congruence|]. hd; [congruence|].
    injection H as <- _ <-. rewrite be_uint, slice_addr in *. change (uint (skipn 12 ?x)) with (addr x) in *.
    apply negb_false_iff in E3. apply N.eqb_eq in E3. apply Nat.ltb_ge in E4. apply N.ltb_ge in E2.
    apply ok_role with (s := SEL_GRANT); auto.
    - eapply calls1_of; eauto.
    - apply negb_true_iff; auto.
    - apply N.eqb_eq; auto. }
  hd.
  { clear E2 E3 E4 E5 E6. apply andb_true_iff in E7 as [Ef Es].
    try rewrite (NE _ SEL_TOTAL_SUPPLY Es eq_refl) in E0.
    try rewrite (NE _ SEL_HAS_ROLE Es eq_refl) in E0.
    rewrite ?andb_false_r in E0. simpl in E0.
    try rewrite (NE _ SEL_BURN Es eq_refl) in E1. simpl in E1.
    unfold handle_set_role in H. hd; [congruence|]. hd; [congruence|]. hd; [congruence|].
    injection H as <- _ <-. rewrite be_uint, slice_addr in *. change (uint (skipn 12 ?x)) with (addr x) in *.
    apply negb_false_iff in E3. apply N.eqb_eq in E3. apply Nat.ltb_ge in E4. apply N.ltb_ge in E2.
    apply ok_role with (s := SEL_REVOKE); auto.
    - eapply calls1_of; eauto.
    - apply negb_true_iff; auto.
    - apply N.eqb_eq; auto. }
  hd.
  { clear E2 E3 E4 E5 E6 E7. apply andb_true_iff in E8 as [Ef Es].
    try rewrite (NE _ SEL_BURN Es eq_refl) in E1. simpl in E1.
    unfold handle_has_mint_role in H. hd; [congruence|]. hd; [congruence|].
    injection H as <- _ <-. rewrite be_uint, slice_addr in *. change (uint (skipn 12 ?x)) with (addr x) in *.
    apply Nat.ltb_ge in E3. apply N.ltb_ge in E2.
    unfold has_mint_role, has_governance_role. rewrite Ef.
    apply ok_has; auto.
    - eapply calls1_of; eauto.
    - apply N.eqb_eq; auto. }
  hd; [|congruence].
  { clear E2 E3 E4 E5 E6 E7 E8. apply andb_true_iff in E9 as [Ef Es].
    try rewrite (NE _ SEL_TOTAL_SUPPLY Es eq_refl) in E0.
    try rewrite (NE _ SEL_HAS_ROLE Es eq_refl) in E0.
    rewrite ?andb_false_r in E0. simpl in E0.
    try rewrite (NE _ SEL_BURN Es eq_refl) in E1. simpl in E1.
    unfold handle_mint_faucet in H. cbv zeta in H.
    hd; [congruence|]. hd; [congruence|]. hd; [congruence|]. hd; [congruence|]. hd; [|congruence].
    injection H as <- _ <-. rewrite !be_uint, slice_addr in *. change (uint (skipn 12 ?x)) with (addr x) in *.
    apply negb_false_iff in E3. apply Nat.ltb_ge in E4. apply N.ltb_ge in E2.
    apply N.eqb_neq in E5. apply N.ltb_lt in E6.
    apply ok_fmint; auto.
    - destruct (slice32 _ E4) as [A B]. split; [|split; auto].
      + destruct (slice0 (skipn 4 (pi_data i))); auto. lia.
      + exists (skipn 64 (skipn 4 (pi_data i))).
        rewrite (calls0_skip _ SEL_FAUCET_MINT eq_refl (L _ Es eq_refl)) at 1. f_equal. exact B.
    - apply negb_true_iff; auto.
    - apply N.eqb_eq; auto.
    - unfold has_mint_role, has_governance_role in E3. rewrite Ef in E3.
      apply orb_true_iff in E3 as [E3|E3]; [left; apply N.eqb_eq; auto|right].
      apply negb_true_iff, N.eqb_neq in E3. exact E3. }
Qed.

Lemma sel_of d sel : calls0 d sel -> length sel = 4%nat ->
  (length d <? 4)%nat = false /\ firstn 4 d = sel.
Proof.
  intros H Hl. split; [|apply calls0_iff; auto]. destruct H as [r ->].
  rewrite app_length, Hl. apply Nat.ltb_ge. lia.
Qed.

Lemma calls1_data d sel w : calls1 d sel w -> length sel = 4%nat ->
  calls0 d sel /\ (length (skipn 4 d) <? 32)%nat = false /\ slice 0 32 (skipn 4 d) = w.
Proof.
  intros [Hw [r ->]] Hl. split; [exists (w ++ r); auto|].
  rewrite skip_sel by auto. split.
  - rewrite app_length, Hw. apply Nat.ltb_ge. lia.
  - apply slice_word; auto.
Qed.

Lemma calls2_data d sel w1 w2 : calls2 d sel w1 w2 -> length sel = 4%nat ->
  calls0 d sel /\ (length (skipn 4 d) <? 64)%nat = false /\ slice 0 32 (skipn 4 d) = w1 /\
  slice 32 64 (skipn 4 d) = w2.
Proof.
  intros [H1 [H2 [r ->]]] Hl. split; [exists (w1 ++ w2 ++ r); auto|].
  rewrite skip_sel by auto. split; [|split].
  - rewrite !app_length, H1, H2. apply Nat.ltb_ge. lia.
  - apply slice_word; auto.
  - apply slice_word2; auto.
Qed.

Lemma ltb_false_of a b : b <= a -> (a <? b) = false.
Proof. intros; apply N.ltb_ge; auto. Qed.

Lemma ok_complete st i st' o :
  ok_case st i st' o -> exists g, telcoin_precompile kslot ovf faucet st i = ROk st' g o.
Proof.
  intros H. destruct H as
    [w Hf Hc Hs Hv Hg Hgas
    |w a Hc Hs Hv Hg Hgas Ha Ha0 Ht st3 Hov
    |w Hc Hs Hv Hg Hgas Hb Hsup
    |Hc Hv Hgas
    |s v w Hf Hsv Hc Hs Hv Hg Hgas
    |w Hf Hc Hv Hgas
    |w1 w2 Hf Hc Hs Hv Hg Hgas Ha0 Hov].
  - destruct (calls1_data _ SEL_MINT w Hc eq_refl) as [C0 [Hlen Hw]].
    destruct (sel_of _ _ C0 eq_refl) as [L4 F4].
    exists 41000. unfold telcoin_precompile. cbv zeta. rewrite L4, F4, Hs, Hv, Hf, Hg.
    cbn [eqb_bytes SEL_MINT SEL_TOTAL_SUPPLY SEL_HAS_ROLE SEL_BURN N.eqb Pos.eqb andb orb negb].
    unfold handle_mint. cbv zeta. rewrite (ltb_false_of _ _ Hgas), Hlen, Hw.
    unfold has_mint_role, has_governance_role. rewrite N.eqb_refl. reflexivity.
  - destruct (calls1_data _ SEL_CLAIM w Hc eq_refl) as [C0 [Hlen Hw]].
    destruct (sel_of _ _ C0 eq_refl) as [L4 F4].
    exists 25000. unfold telcoin_precompile. cbv zeta. rewrite L4, F4, Hs, Hv, Hg.
    cbn [eqb_bytes SEL_MINT SEL_CLAIM SEL_TOTAL_SUPPLY SEL_HAS_ROLE SEL_BURN N.eqb Pos.eqb andb orb negb].
    rewrite !andb_false_r. cbn [orb negb].
    unfold handle_claim. cbv zeta. rewrite (ltb_false_of _ _ Hgas), Hlen, slice_addr, Hw.
    rewrite be_uint. change (uint (skipn 12 w)) with (addr w).
    unfold has_governance_role. rewrite N.eqb_refl. cbn [negb].
    unfold amount_slot, timestamp_slot. rewrite <- Ha.
    rewrite (proj2 (N.eqb_neq _ _) Ha0), (ltb_false_of _ _ Ht).
    change SUPPLY_SLOT with 100. fold st3. rewrite (proj2 (N.ltb_lt _ _) Hov). reflexivity.
  - destruct (calls1_data _ SEL_BURN w Hc eq_refl) as [C0 [Hlen Hw]].
    destruct (sel_of _ _ C0 eq_refl) as [L4 F4].
    exists 8000. unfold telcoin_precompile. cbv zeta. rewrite L4, F4, Hs, Hg.
    cbn [eqb_bytes SEL_MINT SEL_CLAIM SEL_TOTAL_SUPPLY SEL_HAS_ROLE SEL_BURN N.eqb Pos.eqb andb orb negb].
    rewrite !andb_false_r. cbn [orb negb].
    replace ((pi_target i =? PRE) || (pi_value i =? 0)) with true
      by (symmetry; apply orb_true_iff; destruct Hv as [->| ->]; [right|left]; apply N.eqb_refl).
    cbn [negb].
    unfold handle_burn, balance_decr. cbv zeta. rewrite (ltb_false_of _ _ Hgas), Hlen, Hw, be_uint.
    unfold has_governance_role. rewrite N.eqb_refl. cbn [negb].
    change SUPPLY_SLOT with 100.
    destruct (uint w =? 0) eqn:Z.
    + rewrite (ltb_false_of _ _ Hsup). reflexivity.
    + rewrite (ltb_false_of _ _ Hb). cbn [t_sto set_bal]. rewrite (ltb_false_of _ _ Hsup). reflexivity.
  - destruct (sel_of _ _ Hc eq_refl) as [L4 F4].
    exists 2100. unfold telcoin_precompile. cbv zeta. rewrite L4, F4, Hv.
    cbn [eqb_bytes SEL_MINT SEL_CLAIM SEL_TOTAL_SUPPLY SEL_HAS_ROLE SEL_BURN N.eqb Pos.eqb andb orb negb].
    rewrite !andb_false_r.
    unfold handle_total_supply. rewrite (ltb_false_of _ _ Hgas). reflexivity.
  - exists 22000. destruct Hsv as [[-> ->]|[-> ->]];
    (destruct (calls1_data _ _ w Hc eq_refl) as [C0 [Hlen Hw]];
     destruct (sel_of _ _ C0 eq_refl) as [L4 F4];
     unfold telcoin_precompile; cbv zeta; rewrite L4, F4, Hs, Hv, Hg, Hf;
     cbn [eqb_bytes SEL_MINT SEL_CLAIM SEL_TOTAL_SUPPLY SEL_HAS_ROLE SEL_BURN SEL_GRANT SEL_REVOKE N.eqb Pos.eqb andb orb negb];
     unfold handle_set_role; rewrite (ltb_false_of _ _ Hgas), Hlen, slice_addr, Hw; reflexivity).
  - exists 2100. destruct (calls1_data _ _ w Hc eq_refl) as [C0 [Hlen Hw]].
    destruct (sel_of _ _ C0 eq_refl) as [L4 F4].
    unfold telcoin_precompile. cbv zeta. rewrite L4, F4, Hv, Hf.
    cbn [eqb_bytes SEL_MINT SEL_CLAIM SEL_TOTAL_SUPPLY SEL_HAS_ROLE SEL_BURN SEL_GRANT SEL_REVOKE N.eqb Pos.eqb andb orb negb].
    unfold handle_has_mint_role. rewrite (ltb_false_of _ _ Hgas), Hlen, slice_addr, Hw.
    unfold has_mint_role, has_governance_role. reflexivity.
  - exists 30000. destruct (calls2_data _ _ w1 w2 Hc eq_refl) as [C0 [Hlen [Hw1 Hw2]]].
    destruct (sel_of _ _ C0 eq_refl) as [L4 F4].
    unfold telcoin_precompile. cbv zeta. rewrite L4, F4, Hs, Hv, Hf.
    cbn [eqb_bytes SEL_MINT SEL_CLAIM SEL_TOTAL_SUPPLY SEL_HAS_ROLE SEL_BURN SEL_GRANT SEL_REVOKE SEL_FAUCET_MINT N.eqb Pos.eqb andb orb negb].
    unfold handle_mint_faucet. cbv zeta.
    rewrite (ltb_false_of _ _ Hgas), Hlen, slice_addr, Hw1, Hw2, !be_uint.
    change (uint (skipn 12 w1)) with (addr w1).
    replace (has_mint_role kslot true st (pi_caller i)) with true.
    2:{ symmetry. unfold has_mint_role, has_governance_role. apply orb_true_iff.
        destruct Hg as [->|Hg]; [left; apply N.eqb_refl|right]. apply negb_true_iff, N.eqb_neq; auto. }
    cbn [negb]. rewrite (proj2 (N.eqb_neq _ _) Ha0).
    cbn [t_sto balance_incr set_bal]. change SUPPLY_SLOT with 100.
    rewrite (proj2 (N.ltb_lt _ _) Hov). reflexivity.
Qed.

(* ---- whole calls ---- *)
Lemma call_ok st f o :
  snd (evm_call kslot ovf faucet st f) = Some o ->
  exists st1, pre_transfer st f = Some st1 /\
    ok_case st1 (input_of f) (fst (evm_call kslot ovf faucet st f)) o.
Proof.
  unfold evm_call. intros H. destruct (pre_transfer st f) as [st1|]; [|discriminate H].
  destruct (telcoin_precompile kslot ovf faucet st1 (input_of f)) as [e|st2 g out] eqn:E;
    [discriminate H|].
  exists st1. split; auto. cbn in *. injection H as <-. eapply ok_inv; eauto.
Qed.

Lemma call_fail st f :
  snd (evm_call kslot ovf faucet st f) = None -> fst (evm_call kslot ovf faucet st f) = st.
Proof.
  unfold evm_call. intros H. destruct (pre_transfer st f) as [st1|]; auto.
  destruct (telcoin_precompile kslot ovf faucet st1 (input_of f)); auto. discriminate H.
Qed.

Lemma call_of_ok st f st1 st2 o :
  pre_transfer st f = Some st1 -> ok_case st1 (input_of f) st2 o ->
  evm_call kslot ovf faucet st f = (st2, Some o).
Proof.
  intros H1 H2. destruct (ok_complete _ _ _ _ H2) as [g Hg]. unfold evm_call.
  rewrite H1, Hg. reflexivity.
Qed.

(* the value transfer changes nothing but balances *)
Lemma pre_frame st f st1 : pre_transfer st f = Some st1 ->
  t_sto st1 = t_sto st /\ t_logs st1 = t_logs st /\ t_now st1 = t_now st.
Proof.
  unfold pre_transfer. destruct (f_kind f); intros H.
  - hd; [discriminate H|]. hd; [discriminate H|]. cbv zeta in H. hd; [|discriminate H].
    injection H as <-. auto.
  - hd; [discriminate H|]. injection H as <-. auto.
  - injection H as <-. auto.
  - injection H as <-. auto.
Qed.

Lemma input_caller f : pi_caller (input_of f) = acting f.
Proof. unfold input_of, acting. destruct (f_kind f); reflexivity. Qed.
Lemma input_data f : pi_data (input_of f) = f_data f.
Proof. unfold input_of. destruct (f_kind f); reflexivity. Qed.
Lemma input_gas f : pi_gas (input_of f) = f_gas f.
Proof. unfold input_of. destruct (f_kind f); reflexivity. Qed.

End P.

(* ---- sums ---- *)
Lemma upd_same b a v : upd b a v a = v.
Proof. unfold upd. rewrite N.eqb_refl. reflexivity. Qed.
Lemma upd_other b a v x : x <> a -> upd b a v x = b x.
Proof. intros H. unfold upd. apply N.eqb_neq in H. rewrite H. reflexivity. Qed.

Lemma bal_sum_ext b b' U : (forall a, In a U -> b a = b' a) -> bal_sum b U = bal_sum b' U.
Proof.
  induction U as [|x U IH]; simpl; intros H; auto. rewrite (H x) by auto. rewrite IH; auto.
Qed.

Lemma bal_sum_upd_out b a v U : ~ In a U -> bal_sum (upd b a v) U = bal_sum b U.
Proof. intros H. apply bal_sum_ext. intros x Hx. apply upd_other. intros ->; auto. Qed.

Lemma bal_sum_upd b a v U : NoDup U -> In a U ->
  bal_sum (upd b a v) U + b a = bal_sum b U + v.
Proof.
  induction U as [|x U IH]; simpl; intros Hn Hi; [contradiction|]. inversion Hn; subst.
  destruct (N.eq_dec x a) as [->|Hne].
  - rewrite upd_same, bal_sum_upd_out by auto. lia.
  - destruct Hi as [Hi|Hi]; [congruence|]. specialize (IH H2 Hi). rewrite upd_other by auto. lia.
Qed.

Lemma bal_sum_ge b a U : In a U -> b a <= bal_sum b U.
Proof.
  induction U as [|x U IH]; simpl; [contradiction|]. intros [->|H]; [lia|]. specialize (IH H). lia.
Qed.

Lemma bal_sum_app b U V : bal_sum b (U ++ V) = bal_sum b U + bal_sum b V.
Proof. induction U; simpl; lia. Qed.
Lemma bal_sum_zero b U : (forall a, In a U -> b a = 0) -> bal_sum b U = 0.
Proof. induction U as [|x U IH]; simpl; intros H; auto. rewrite (H x), IH by auto. lia. Qed.

