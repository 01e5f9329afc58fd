(* C39: issuance of the native token through the TEL precompile *)
From Verif Require Import Util TelModel TelSpec TelProofs TelProofs2.
Local Open Scope N_scope.

(* After any history, in either build: if the recorded supply covered all balances at the start,
   the sum of all balances and the recorded supply have changed by the same amount. With a genesis
   in which they are equal, totalSupply() is always the exact sum of all balances. *)
Theorem C39_supply_tracks_balances :
  forall (kslot ovf : N -> N -> N) (faucet : bool) (st0 : tstate) (h : list ev) (U : list N),
    slots_ok kslot ->
    holders U (t_bal st0) ->
    holders U (t_bal (trun kslot ovf faucet st0 h)) ->
    bal_sum (t_bal st0) U <= supply st0 ->
    bal_sum (t_bal (trun kslot ovf faucet st0 h)) U + supply st0
    = bal_sum (t_bal st0) U + supply (trun kslot ovf faucet st0 h).
Proof. intros. apply conservation; auto. Qed.

(* such a list of accounts always exists: finitely many accounts ever own anything *)
Theorem C39_holders_stay_finite :
  forall (kslot ovf : N -> N -> N) (faucet : bool) (st0 : tstate) (h : list ev) (U : list N),
    slots_ok kslot ->
    holders U (t_bal st0) ->
    exists V, holders (U ++ V) (t_bal st0) /\
              holders (U ++ V) (t_bal (trun kslot ovf faucet st0 h)).
Proof. intros. apply holders_exist; auto. Qed.

(* The logs only grow, and the supply is the initial supply plus what the new Transfer events say
   was created minus what they say was destroyed. *)
Theorem C39_events_account_for_supply :
  forall (kslot ovf : N -> N -> N) (faucet : bool) (st0 : tstate) (h : list ev),
    slots_ok kslot ->
    exists new,
      t_logs (trun kslot ovf faucet st0 h) = t_logs st0 ++ new /\
      supply (trun kslot ovf faucet st0 h) + destroyed new = supply st0 + created new.
Proof. intros. apply run_logs; auto. Qed.

(* Whatever changes a word of the precompile's storage (supply, pending mints, roles) or emits one
   of its logs is a successful call made in the name of the governance safe, or, in a faucet build
   only, a faucet mint in the name of a role holder. *)
Theorem C39_only_governance :
  forall (kslot ovf : N -> N -> N) (faucet : bool) (st : tstate) (e : ev),
    (exists k, t_sto (tstep kslot ovf faucet st e) k <> t_sto st k) \/
    t_logs (tstep kslot ovf faucet st e) <> t_logs st ->
    exists f, e = EvCall f /\ succeeds kslot ovf faucet st f /\
      (acting f = 0x7a0 \/
       (faucet = true /\ is_faucet_mint f /\ t_sto st (kslot 3 (acting f)) <> 0)).
Proof.
  intros kslot ovf faucet st e H. destruct e as [now|src dst v|f].
  - exfalso. destruct H as [[k H]|H]; apply H; reflexivity.
  - exfalso. destruct (move_frame kslot ovf faucet st src dst v) as [A [B _]].
    destruct H as [[k H]|H]; apply H; [rewrite A|rewrite B]; reflexivity.
  - exists f. split; auto. cbn [tstep] in H.
    destruct (snd (evm_call kslot ovf faucet st f)) as [o|] eqn:E.
    + split; [unfold succeeds; rewrite E; congruence|].
      destruct (call_ok _ _ _ _ _ _ E) as [st1 [Hp Hok]].
      destruct (pre_frame _ _ _ Hp) as [Hs [Hl _]]. rewrite <- Hs in H |- *. rewrite <- Hl in H.
      destruct Hok as
        [w Hf Hc Hst Hv Hg Hgas
        |w a Hc Hst Hv Hg Hgas Ha Ha0 Ht st3 Hov
        |w Hc Hst Hv Hg Hgas Hb Hsup
        |Hc Hv Hgas
        |s v w Hf Hsv Hc Hst Hv Hg Hgas
        |w Hf Hc Hv Hgas
        |w1 w2 Hf Hc Hst Hv Hg Hgas Ha0 Hov]; rewrite ?input_caller, ?input_data in *; auto.
      * exfalso. destruct H as [[k H]|H]; apply H; reflexivity.
      * exfalso. destruct H as [[k H]|H]; apply H; reflexivity.
      * destruct Hg as [Hg|Hg]; auto. right. split; [auto|]. split; auto. exists w1, w2. auto.
    + exfalso. rewrite (call_fail _ _ _ _ _ E) in H. destruct H as [[k H]|H]; apply H; reflexivity.
Qed.

(* Mainnet build. A claim only ever pays out the most recent mint: it pays governance the amount of
   a mint that succeeded at least seven days (604800 s) earlier and since which no other mint or
   claim succeeded; so no mint is paid twice and an overwritten mint is never paid. The supply grows
   by exactly that amount and so does the recipient's balance. *)
Theorem C39_timelock :
  forall (kslot ovf : N -> N -> N) (st0 : tstate) (h : list ev) (f : frame) (w : list N),
    slots_ok kslot ->
    nothing_pending kslot st0 -> t_now st0 < 2 ^ 64 -> times_ok h ->
    let st := trun kslot ovf false st0 h in
    calls1 (f_data f) SEL_CLAIM w -> succeeds kslot ovf false st f ->
    exists h1 m h2 wm,
      h = h1 ++ EvCall m :: h2 /\
      calls1 (f_data m) SEL_MINT wm /\ uint wm <> 0 /\
      succeeds kslot ovf false (trun kslot ovf false st0 h1) m /\
      acting m = 0x7a0 /\ acting f = 0x7a0 /\ addr w = 0x7a0 /\
      t_now (trun kslot ovf false st0 h1) + 604800 <= t_now st /\
      none_succeeds kslot ovf false mint_or_claim
        (trun kslot ovf false st0 (h1 ++ [EvCall m])) h2 /\
      let st' := tstep kslot ovf false st (EvCall f) in
      supply st' = supply st + uint wm /\
      (t_bal st 0x7a0 + uint wm < 2 ^ 256 -> t_bal st' 0x7a0 = t_bal st 0x7a0 + uint wm) /\
      (forall a, a <> 0x7a0 -> t_bal st' a = t_bal st a) /\
      nothing_pending kslot st'.
Proof.
  intros kslot ovf st0 h f w SL NP Hnow Ht st Hw S.
  destruct (tl_holds kslot ovf false SL eq_refl st0 NP Hnow h Ht) as [I1 I2]. fold st in I1, I2.
  destruct (succ_some _ _ _ _ _ S) as [o E].
  destruct (claim_ok kslot ovf false SL st f o E w Hw) as [C1 [C2 [C3 [C4 [C5 [C6 [C7 C8]]]]]]].
  assert (R : addr w = GOV).
  { destruct (N.eq_dec (addr w) GOV) as [|Hne]; auto. exfalso. apply C2. apply I1; auto. }
  rewrite R in *. destruct (I2 C2) as [h1 [m [h2 [wm [A1 [A2 [A3 [A4 [A5 A6]]]]]]]]].
  exists h1, m, h2, wm. rewrite A3.
  split; [auto|]. split; [auto|]. split; [auto|]. split; [auto|].
  split. { destruct (succ_some _ _ _ _ _ A4) as [om Em].
    assert (Hb : t_now (trun kslot ovf false st0 h1) < 2 ^ 64).
    { apply (step_now_bound kslot ovf false st0 h1); auto. intros t Hin. apply Ht.
      rewrite A1. apply in_app_iff; auto. }
    destruct (mint_ok kslot ovf false SL eq_refl _ _ _ Em wm A2 Hb) as [G _]. exact G. }
  split; [auto|]. split; [auto|].
  split; [rewrite <- A5; auto|]. split; [auto|]. cbv zeta. cbn [tstep].
  split; [auto|]. split; [exact C7|]. split; [auto|].
  intros a. destruct (N.eq_dec a GOV) as [->|Hne]; [exact C4|].
  destruct (C5 a Hne) as [-> _]. apply I1; auto.
Qed.

(* Cancelling: once nothing is pending (for instance after a mint of zero) no claim succeeds until
   a mint does. In a faucet build no timelocked mint exists at all, so no claim ever succeeds. *)
Theorem C39_no_mint_no_claim :
  forall (kslot ovf : N -> N -> N) (faucet : bool) (st : tstate) (h : list ev),
    slots_ok kslot -> nothing_pending kslot st ->
    (faucet = true \/ none_succeeds kslot ovf faucet is_mint st h) ->
    nothing_pending kslot (trun kslot ovf faucet st h) /\
    none_succeeds kslot ovf faucet is_claim st h.
Proof.
  intros kslot ovf faucet st h SL NP H. apply np_run; auto. destruct H as [F|H]; auto.
  intros p f q _ M S. apply (mint_main kslot ovf faucet) in S; auto. congruence.
Qed.

Theorem C39_zero_mint_cancels :
  forall (kslot ovf : N -> N -> N) (st0 : tstate) (h1 h2 : list ev) (m : frame) (w : list N),
    slots_ok kslot -> nothing_pending kslot st0 -> t_now st0 < 2 ^ 64 -> times_ok h1 ->
    calls1 (f_data m) SEL_MINT w -> uint w = 0 ->
    succeeds kslot ovf false (trun kslot ovf false st0 h1) m ->
    let st := trun kslot ovf false st0 (h1 ++ [EvCall m]) in
    none_succeeds kslot ovf false is_mint st h2 ->
    none_succeeds kslot ovf false is_claim st h2.
Proof.
  intros kslot ovf st0 h1 h2 m w SL NP Hn Ht Hw Z S st HN.
  apply np_run; auto. unfold st. rewrite run_snoc. cbn [tstep].
  destruct (tl_holds kslot ovf false SL eq_refl st0 NP Hn h1 Ht) as [I1 _].
  pose proof (step_now_bound kslot ovf false st0 h1 Hn Ht) as Hb.
  destruct (succ_some _ _ _ _ _ S) as [o E].
  destruct (mint_ok kslot ovf false SL eq_refl _ _ _ E w Hw Hb) as [_ [_ [A [_ [C _]]]]].
  intros a. destruct (N.eq_dec a GOV) as [->|Hne]; [rewrite A; exact Z|].
  rewrite C by auto. apply I1; auto.
Qed.

(* A call that does not return normally, and any call inside a static frame, changes nothing. *)
Theorem C39_failed_or_static_changes_nothing :
  forall (kslot ovf : N -> N -> N) (faucet : bool) (st : tstate) (f : frame),
    (~ succeeds kslot ovf faucet st f -> fst (evm_call kslot ovf faucet st f) = st) /\
    (f_kind f = KStatic \/ f_static f = true ->
     let st' := fst (evm_call kslot ovf faucet st f) in
     (forall a, t_bal st' a = t_bal st a) /\ (forall k, t_sto st' k = t_sto st k) /\
     t_logs st' = t_logs st).
Proof.
  intros kslot ovf faucet st f.
  assert (F : ~ succeeds kslot ovf faucet st f -> fst (evm_call kslot ovf faucet st f) = st).
  { intros H. apply call_fail. unfold succeeds in H.
    destruct (snd (evm_call kslot ovf faucet st f)); auto. exfalso; apply H; congruence. }
  split; auto. intros Hs. cbv zeta.
  destruct (snd (evm_call kslot ovf faucet st f)) as [o|] eqn:E.
  2:{ rewrite (call_fail _ _ _ _ _ E). auto. }
  destruct (call_ok _ _ _ _ _ _ E) as [st1 [Hp Hok]].
  assert (B : forall a, t_bal st1 a = t_bal st a).
  { unfold pre_transfer in Hp. destruct (f_kind f) eqn:K.
    - destruct Hs as [Hs|Hs]; [discriminate Hs|]. rewrite Hs in Hp.
      destruct (f_value f =? 0) eqn:V; [|discriminate Hp]. apply N.eqb_eq in V. rewrite V in Hp.
      cbn [andb negb] in Hp. destruct (_ <? 0) in Hp; [discriminate Hp|]. cbv zeta in Hp.
      destruct (_ <? U256_LIM) in Hp; [|discriminate Hp]. injection Hp as <-.
      intros a. cbn [t_bal set_bal]. unfold upd. destruct (a =? PRE) eqn:EP.
      + apply N.eqb_eq in EP as ->.
        destruct (PRE =? f_self f) eqn:EF; [apply N.eqb_eq in EF as ->|]; lia.
      + destruct (a =? f_self f) eqn:EF; [apply N.eqb_eq in EF as ->|]; lia.
    - destruct (_ <? _) in Hp; [discriminate Hp|]. injection Hp as <-. reflexivity.
    - injection Hp as <-. reflexivity.
    - injection Hp as <-. reflexivity. }
  destruct (pre_frame _ _ _ Hp) as [Hst [Hl _]]. rewrite <- Hst, <- Hl.
  assert (St : pi_static (input_of f) = true).
  { unfold input_of. destruct Hs as [-> |Hs]; [reflexivity|].
    destruct (f_kind f); cbn; auto. }
  destruct Hok as
    [w Hf Hc Hs' Hv Hg Hgas
    |w a Hc Hs' Hv Hg Hgas Ha Ha0 Ht st3 Hov
    |w Hc Hs' Hv Hg Hgas Hb Hsup
    |Hc Hv Hgas
    |s v w Hf Hsv Hc Hs' Hv Hg Hgas
    |w Hf Hc Hv Hgas
    |w1 w2 Hf Hc Hs' Hv Hg Hgas Ha0 Hov]; try congruence; auto.
Qed.

(* The only way value reaches the precompile through a call that returns normally is a plain call
   of burn: the value joins the pool, the amount leaves it, the rest stays. *)
Theorem C39_value_only_through_burn :
  forall (kslot ovf : N -> N -> N) (faucet : bool) (st : tstate) (f : frame),
    succeeds kslot ovf faucet st f -> f_kind f <> KStatic -> f_value f <> 0 ->
    f_self f <> 0x7e1 ->
    f_kind f = KCall /\ f_self f = 0x7a0 /\
    exists w, calls1 (f_data f) SEL_BURN w /\
      let st' := fst (evm_call kslot ovf faucet st f) in
      uint w <= t_bal st 0x7e1 + f_value f /\ uint w <= supply st /\
      supply st' + uint w = supply st /\
      t_bal st' 0x7e1 + uint w = t_bal st 0x7e1 + f_value f /\
      t_bal st' 0x7a0 + f_value f = t_bal st 0x7a0 /\
      (forall a, a <> 0x7e1 -> a <> 0x7a0 -> t_bal st' a = t_bal st a).
Proof.
  intros kslot ovf faucet st f S Hk Hv Hself. change 0x7e1 with PRE in Hself. destruct (succ_some _ _ _ _ _ S) as [o E].
  destruct (call_ok _ _ _ _ _ _ E) as [st1 [Hp Hok]].
  assert (V : pi_value (input_of f) <> 0).
  { unfold input_of. destruct (f_kind f); auto; congruence. }
  assert (B : exists w, calls1 (f_data f) SEL_BURN w /\ pi_target (input_of f) = PRE).
  { destruct Hok as
    [w Hf Hc Hs' Hv' Hg Hgas
    |w a Hc Hs' Hv' Hg Hgas Ha Ha0 Ht st3 Hov
    |w Hc Hs' Hv' Hg Hgas Hb Hsup
    |Hc Hv' Hgas
    |s v w Hf Hsv Hc Hs' Hv' Hg Hgas
    |w Hf Hc Hv' Hgas
    |w1 w2 Hf Hc Hs' Hv' Hg Hgas Ha0 Hov]; try congruence.
    exists w. rewrite input_data in Hc. split; auto. destruct Hv'; [congruence|auto]. }
  destruct B as [w [Hw T]].
  assert (K : f_kind f = KCall).
  { unfold input_of in T. destruct (f_kind f); auto; cbn [pi_target] in T; congruence. }
  destruct (burn_ok _ _ _ _ _ _ E w Hw) as [st1' [Hp' [G [B1 [B2 [B3 [B4 B5]]]]]]].
  rewrite Hp in Hp'. injection Hp' as <-.
  assert (G' : f_self f = GOV) by (unfold acting in G; rewrite K in G; exact G).
  split; [auto|]. split; [exact G'|]. exists w. split; [auto|]. cbv zeta.
  unfold pre_transfer in Hp. rewrite K in Hp. destruct (_ && _) in Hp; [discriminate Hp|].
  destruct (t_bal st (f_self f) <? f_value f) eqn:L; [discriminate Hp|]. apply N.ltb_ge in L.
  cbv zeta in Hp. destruct (_ <? U256_LIM) in Hp; [|discriminate Hp]. injection Hp as Hp.
  assert (P1 : t_bal st1 PRE = t_bal st PRE + f_value f).
  { rewrite <- Hp. cbn [t_bal set_bal]. rewrite upd_same, upd_other by (rewrite G'; discriminate). auto. }
  assert (P2 : t_bal st1 GOV = t_bal st GOV - f_value f).
  { rewrite <- Hp. cbn [t_bal set_bal]. rewrite upd_other by discriminate. rewrite <- G', upd_same. auto. }
  assert (P3 : forall a, a <> PRE -> a <> GOV -> t_bal st1 a = t_bal st a).
  { intros a H1 H2. rewrite <- Hp. cbn [t_bal set_bal]. rewrite !upd_other; auto. congruence. }
  rewrite G' in L. change 0x7e1 with PRE. change 0x7a0 with GOV. rewrite P1 in *.
  split; [auto|]. split; [auto|]. split; [lia|]. split; [lia|].
  split; [|intros a H1 H2; rewrite B5, P3; auto].
  rewrite B5 by discriminate. rewrite P2. lia.
Qed.

(* totalSupply() answers with the recorded supply in every kind of frame and changes nothing *)
Theorem C39_total_supply_view :
  forall (kslot ovf : N -> N -> N) (faucet : bool) (st : tstate) (f : frame),
    calls0 (f_data f) SEL_TOTAL_SUPPLY -> f_value f = 0 -> 2100 <= f_gas f ->
    t_bal st 0x7e1 < 2 ^ 256 ->
    snd (evm_call kslot ovf faucet st f) = Some (OWord (supply st)) /\
    (forall a, t_bal (fst (evm_call kslot ovf faucet st f)) a = t_bal st a).
Proof.
  intros kslot ovf faucet st f Hc Hv Hg Hb.
  assert (P : exists st1, pre_transfer st f = Some st1 /\ forall a, t_bal st1 a = t_bal st a).
  { unfold pre_transfer. rewrite Hv. destruct (f_kind f).
    - rewrite andb_false_r. assert (t_bal st (f_self f) <? 0 = false) as -> by (apply N.ltb_ge; lia).
      cbv zeta. cbn [t_bal set_bal]. rewrite !N.add_0_r, !N.sub_0_r.
      assert (X : forall a, upd (t_bal st) (f_self f) (t_bal st (f_self f)) a = t_bal st a).
      { intros a. unfold upd. destruct (a =? f_self f) eqn:EF; auto. apply N.eqb_eq in EF as ->; auto. }
      rewrite X. apply N.ltb_lt in Hb. change 0x7e1 with PRE in Hb. change (2 ^ 256) with U256_LIM in Hb.
      rewrite Hb. eexists. split; [reflexivity|]. intros a. cbn [t_bal set_bal]. unfold upd at 1.
      destruct (a =? PRE) eqn:EP; [apply N.eqb_eq in EP as ->; auto|apply X].
    - assert (t_bal st (f_self f) <? 0 = false) as -> by (apply N.ltb_ge; lia). eauto.
    - eauto.
    - eauto. }
  destruct P as [st1 [Hp Hbal]]. destruct (pre_frame _ _ _ Hp) as [Hs _].
  assert (Ok : ok_case kslot ovf faucet st1 (input_of f) st1 (OWord (t_sto st1 100))).
  { apply ok_supply; rewrite ?input_data, ?input_gas; auto.
    unfold input_of. destruct (f_kind f); auto. }
  rewrite (call_of_ok _ _ _ _ _ _ _ _ Hp Ok). cbn [fst snd]. unfold supply. rewrite Hs. auto.
Qed.

(* Governance can always finish: a plain call of claim for a mint whose time has come succeeds
   unless the supply would pass 2^256 - 1. *)
Theorem C39_claim_succeeds :
  forall (kslot ovf : N -> N -> N) (faucet : bool) (st : tstate) (f : frame) (w : list N),
    slots_ok kslot ->
    f_kind f = KCall -> f_static f = false -> f_self f = 0x7a0 -> f_value f = 0 ->
    25000 <= f_gas f -> t_bal st 0x7e1 < 2 ^ 256 ->
    calls1 (f_data f) SEL_CLAIM w ->
    t_sto st (kslot 0 (addr w)) <> 0 -> t_sto st (kslot 1 (addr w)) <= t_now st ->
    supply st + t_sto st (kslot 0 (addr w)) < 2 ^ 256 ->
    succeeds kslot ovf faucet st f.
Proof.
  intros kslot ovf faucet st f w SL Hk Hst Hself Hv Hg Hb Hc Ha Ht Hs.
  destruct (pre_transfer st f) as [st1|] eqn:Hp.
  2:{ exfalso. unfold pre_transfer in Hp. rewrite Hk, Hst, Hv, Hself in Hp. cbn [andb] in Hp.
      assert (X : t_bal st 0x7a0 <? 0 = false) by (apply N.ltb_ge; lia). rewrite X in Hp.
      cbv zeta in Hp. cbn [t_bal set_bal] in Hp. rewrite upd_other in Hp by discriminate.
      rewrite N.add_0_r in Hp. apply N.ltb_lt in Hb. change 0x7e1 with PRE in Hb.
      change (2 ^ 256) with U256_LIM in Hb. rewrite Hb in Hp. discriminate Hp. }
  destruct (pre_frame _ _ _ Hp) as [E1 [_ E2]].
  assert (Ok : exists st', ok_case kslot ovf faucet st1 (input_of f) st' OUnit).
  { eexists. eapply (ok_claim kslot ovf faucet st1 (input_of f) w (t_sto st1 (kslot 0 (addr w)))); auto.
    - rewrite input_data; auto.
    - unfold input_of. rewrite Hk. auto.
    - unfold input_of. rewrite Hk. auto.
    - unfold input_of. rewrite Hk. auto.
    - rewrite input_gas; auto.
    - rewrite E1; auto.
    - rewrite E1, E2; auto.
    - cbn [t_sto sstore balance_incr set_bal]. unfold upd.
      rewrite amt100, tim100 by auto. rewrite E1. exact Hs. }
  destruct Ok as [st' Ok]. unfold succeeds. rewrite (call_of_ok _ _ _ _ _ _ _ _ Hp Ok). discriminate.
Qed.

(* A burn never succeeds beyond the recorded supply. Hence on a chain whose genesis does not seed
   the supply word, everything burned so far was claimed before, whatever balances genesis gave. *)
Theorem C39_burned_within_supply :
  forall (kslot ovf : N -> N -> N) (faucet : bool) (st0 : tstate) (h : list ev),
    slots_ok kslot -> supply st0 = 0 ->
    exists new, t_logs (trun kslot ovf faucet st0 h) = t_logs st0 ++ new /\
      destroyed new <= created new.
Proof.
  intros kslot ovf faucet st0 h SL Z. destruct (run_logs kslot ovf faucet SL h st0) as [new [A B]].
  exists new. split; auto. lia.
Qed.

(* Burning, in any frame: exactly the encoded amount leaves the precompile's balance and the supply. *)
Theorem C39_burn_exact :
  forall (kslot ovf : N -> N -> N) (faucet : bool) (st : tstate) (f : frame) (w : list N),
    calls1 (f_data f) SEL_BURN w -> succeeds kslot ovf faucet st f ->
    exists st1, pre_transfer st f = Some st1 /\
      let st' := fst (evm_call kslot ovf faucet st f) in
      acting f = 0x7a0 /\ supply st' + uint w = supply st /\
      t_bal st' 0x7e1 + uint w = t_bal st1 0x7e1 /\
      (forall a, a <> 0x7e1 -> t_bal st' a = t_bal st1 a).
Proof.
  intros kslot ovf faucet st f w Hw S. destruct (succ_some _ _ _ _ _ S) as [o E].
  destruct (burn_ok _ _ _ _ _ _ E w Hw) as [st1 [Hp [G [B1 [B2 [B3 [B4 B5]]]]]]].
  exists st1. split; [auto|]. cbv zeta. split; [auto|]. change 0x7e1 with PRE.
  split; [lia|]. split; [lia|auto].
Qed.

(* A faucet mint pays the encoded amount to the encoded recipient at once, and nobody else. *)
Theorem C39_faucet_mint_exact :
  forall (kslot ovf : N -> N -> N) (st : tstate) (f : frame) (w1 w2 : list N),
    calls2 (f_data f) SEL_FAUCET_MINT w1 w2 -> succeeds kslot ovf true st f ->
    let st' := fst (evm_call kslot ovf true st f) in
    (acting f = 0x7a0 \/ t_sto st (kslot 3 (acting f)) <> 0) /\
    uint w2 <> 0 /\ supply st' = supply st + uint w2 /\
    (t_bal st (addr w1) + uint w2 < 2 ^ 256 ->
     t_bal st' (addr w1) = t_bal st (addr w1) + uint w2) /\
    (forall a, a <> addr w1 -> t_bal st' a = t_bal st a).
Proof. intros. apply (fmint_ok kslot ovf true) with (w2 := w2); auto. Qed.

(* Faucet build: an account holds the mint role exactly when governance granted it and has not
   revoked it since. *)
Theorem C39_faucet_roles :
  forall (kslot ovf : N -> N -> N) (st0 : tstate) (h : list ev) (a : N),
    slots_ok kslot -> t_sto st0 (kslot 3 a) = 0 ->
    t_sto (trun kslot ovf true st0 h) (kslot 3 a) <> 0 <->
    exists h1 m h2, h = h1 ++ EvCall m :: h2 /\ is_grant a m /\
      succeeds kslot ovf true (trun kslot ovf true st0 h1) m /\
      none_succeeds kslot ovf true (is_revoke a) (trun kslot ovf true st0 (h1 ++ [EvCall m])) h2.
Proof. intros. apply role_hist; auto. Qed.

(* ---------- concrete instances ---------- *)
Definition ex_kslot (b a : N) : N := 101 + 4 * a + b.
Definition ex_ovf (a b : N) : N := 0.
Lemma ex_slots : slots_ok ex_kslot.
Proof. unfold ex_kslot. split; intros; lia. Qed.

Definition word (v : N) : list N :=
  map (fun i => (v / 256 ^ N.of_nat (31 - i)) mod 256) (seq 0 32).

Definition ex_call (self v : N) (d : list N) : ev := EvCall (mkF KCall self 0 v false d 100000).
Definition ex_st (sup : N) : tstate :=
  mkT (upd (fun _ => 0) GOV 1000) (upd (fun _ => 0) 100 sup) [] 5.

(* mint 500, wait seven days, claim, fund and burn 200 *)
Definition ex_hist : list ev :=
  [ ex_call GOV 0 (SEL_MINT ++ word 500); EvMove GOV 77 10; EvBlock 604805;
    ex_call GOV 0 (SEL_CLAIM ++ word GOV); ex_call GOV 300 (SEL_BURN ++ word 200) ].
Definition ex_end : tstate := trun ex_kslot ex_ovf false (ex_st 1000) ex_hist.

Example C39_ex_conserved :
  supply ex_end = 1300 /\ bal_sum (t_bal ex_end) [GOV; PRE; 77] = 1300 /\
  t_bal ex_end GOV = 1190 /\ t_bal ex_end PRE = 100 /\ t_bal ex_end 77 = 10 /\
  created (t_logs ex_end) = 500 /\ destroyed (t_logs ex_end) = 200.
Proof. vm_compute. repeat split; reflexivity. Qed.

(* one second early the claim fails; a stranger cannot mint; value on mint is refused *)
Example C39_ex_refusals :
  let st := trun ex_kslot ex_ovf false (ex_st 1000)
              [ex_call GOV 0 (SEL_MINT ++ word 500); EvBlock 604804] in
  snd (evm_call ex_kslot ex_ovf false st (mkF KCall GOV 0 0 false (SEL_CLAIM ++ word GOV) 100000)) = None /\
  snd (evm_call ex_kslot ex_ovf false st (mkF KCall 77 0 0 false (SEL_MINT ++ word 5) 100000)) = None /\
  snd (evm_call ex_kslot ex_ovf false st (mkF KCall GOV 0 1 false (SEL_MINT ++ word 5) 100000)) = None.
Proof. vm_compute. repeat split; reflexivity. Qed.

(* Finding 1. "Governance only" is decided from msg.sender, which a delegate call inherits: while
   governance calls any contract (here 0xbad), that contract's code can mint, claim or burn in
   governance's name by a delegate call. The executing account is not the governance safe. *)
Theorem C39_direct_call_only_refuted :
  exists (st : tstate) (f : frame),
    f_self f <> 0x7a0 /\ succeeds ex_kslot ex_ovf false st f /\
    t_sto (fst (evm_call ex_kslot ex_ovf false st f)) (ex_kslot 0 0x7a0) = 500 /\
    t_sto st (ex_kslot 0 0x7a0) = 0.
Proof.
  exists (ex_st 1000), (mkF KDelegate 0xbad GOV 0 false (SEL_MINT ++ word 500) 100000).
  split; [discriminate|]. split; [vm_compute; discriminate|]. split; vm_compute; reflexivity.
Qed.

(* Finding 2. chain-configs/mainnet/genesis.yaml 46-49 and the testnet file give 0x7e1 code but no
   storage, so the supply word starts at 0 while other accounts own TEL: totalSupply() is not the
   sum of the balances, and governance cannot burn even coins it attaches to the call. *)
Theorem C39_unseeded_supply_refuted :
  exists st U,
    holders U (t_bal st) /\ supply st = 0 /\ bal_sum (t_bal st) U = 1000 /\
    snd (evm_call ex_kslot ex_ovf false st
           (mkF KCall GOV 0 1 false (SEL_BURN ++ word 1) 100000)) = None.
Proof.
  exists (ex_st 0), [GOV]. split; [|split; [|split]]; try (vm_compute; reflexivity).
  split; [repeat constructor; auto|]. intros a Ha. cbn [t_bal ex_st]. apply upd_other.
  intros ->. apply Ha. left; auto.
Qed.
