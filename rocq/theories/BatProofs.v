From Verif Require Import Util WireModel WireSpec WireProofs BatModel BatSpec.
Local Open Scope N_scope.

Lemma sumN_cons x l : sumN (x :: l) = x + sumN l. Proof. reflexivity. Qed.

Lemma filter_length_le' {A} (f : A -> bool) l : (length (filter f l) <= length l)%nat.
Proof. induction l; cbn [filter]; [lia|]. destruct (f a); cbn [length]; lia. Qed.

Section P.
Variable H : bytes -> bytes.
Variable recover : bytes -> option tx.

(* ---------- the validator ---------- *)
Lemma recover_all_iff l ts : recover_all recover l = Some ts <-> Forall2 (fun e t => recover e = Some t) l ts.
Proof.
  revert ts. induction l as [|e l IH]; cbn [recover_all]; intros ts.
  - split; [intros [= <-]; constructor|intros F; inversion F; reflexivity].
  - destruct (recover e) as [t|] eqn:E.
    + destruct (recover_all recover l) as [us|].
      * split; [intros [= <-]; constructor; [exact E|apply IH; reflexivity]|].
        intros F. inversion F; subst. rewrite E in H2. injection H2 as <-. apply IH in H4. injection H4 as <-. reflexivity.
      * split; [discriminate|]. intros F. inversion F; subst. apply IH in H4. discriminate.
    + split; [discriminate|]. intros F. inversion F; subst. congruence.
Qed.
Lemma check_types_iff ts : check_types ts = None <-> Forall (fun t => t_kind t = KLegacy \/ t_kind t = K2930 \/ t_kind t = K1559) ts.
Proof.
  induction ts as [|t ts IH]; cbn [check_types]; [split; [constructor|reflexivity]|].
  rewrite Forall_cons_iff, <- IH. destruct (t_kind t); cbn [allowlisted]; intuition discriminate.
Qed.
Lemma sum_gas_some ts : forall acc g, sum_gas acc ts = Some g -> g = acc + sumN (map t_gas ts).
Proof.
  induction ts as [|t ts IH]; cbn [sum_gas map]; intros acc g E; [injection E as <-; cbn; lia|].
  destruct (_ <? _); [|discriminate]. apply IH in E. rewrite sumN_cons. lia.
Qed.
Lemma sum_gas_fits ts : forall acc, acc + sumN (map t_gas ts) <= 30000000 -> sum_gas acc ts = Some (acc + sumN (map t_gas ts)).
Proof.
  induction ts as [|t ts IH]; cbn [sum_gas map]; intros acc L; [f_equal; cbn; lia|].
  rewrite sumN_cons in *. replace (_ <? _) with true.
  - rewrite IH; [f_equal; lia|lia].
  - symmetry. apply N.ltb_lt. change (2 ^ 64) with 18446744073709551616. lia.
Qed.
Theorem validate_iff v d b : validate H recover v d b = None <-> d = digest H b /\ valid recover v b.
Proof.
  unfold validate, valid. destruct (beqb_spec d (digest H b)) as [->|Nd]; cbn [negb]; [|intuition discriminate].
  destruct (N.eqb_spec (b_worker b) (v_worker v)) as [Ew|Ew]; cbn [negb]; [|intuition discriminate].
  destruct (N.eqb_spec (b_epoch b) (v_epoch v)) as [Ee|Ee]; cbn [negb]; [|intuition discriminate].
  destruct (b_txs b) as [|x r] eqn:Et; [intuition discriminate|].
  unfold max_batch_size. destruct (N.ltb_spec 1000000 (sumN (map lenN (x :: r)))) as [L|L].
  { split; [discriminate|]. intros (_ & _ & _ & _ & _ & L' & _). lia. }
  destruct (recover_all recover (x :: r)) as [ts|] eqn:R.
  2:{ split; [discriminate|]. intros (_ & _ & _ & _ & _ & _ & ts & F & _). apply recover_all_iff in F. congruence. }
  apply recover_all_iff in R.
  assert (U : forall us, Forall2 (fun e t => recover e = Some t) (x :: r) us -> us = ts).
  { intros us F. apply recover_all_iff in F. apply recover_all_iff in R. congruence. }
  destruct (check_types ts) as [e|] eqn:C.
  { split; [discriminate|]. intros (_ & _ & _ & _ & _ & _ & us & F & K & _). rewrite (U us F) in K. apply check_types_iff in K. congruence. }
  apply check_types_iff in C.
  destruct (sum_gas 0 ts) as [g|] eqn:G.
  2:{ split; [discriminate|]. intros (_ & _ & _ & _ & _ & _ & us & F & _ & S). rewrite (U us F) in S.
      rewrite sum_gas_fits in G; [discriminate|lia]. }
  apply sum_gas_some in G. unfold max_batch_gas. destruct (N.ltb_spec 30000000 g) as [Lg|Lg].
  { split; [discriminate|]. intros (_ & _ & _ & _ & _ & _ & us & F & _ & S). rewrite (U us F) in S. lia. }
  destruct (N.eqb_spec (b_fee b) (v_fee v)) as [Ef|Ef]; cbn [negb].
  - split; [|reflexivity]. intros _. do 5 (split; [assumption || reflexivity || discriminate|]).
    split; [lia|]. exists ts. split; [exact R|]. split; [exact C|lia].
  - split; [discriminate|]. intros (_ & _ & _ & Ef' & _). contradiction.
Qed.
End P.

(* ---------- the builder ---------- *)
Lemma bloop_snoc l p : bloop (l ++ [p]) = bstep (bloop l) p.
Proof. unfold bloop. rewrite fold_left_app. reflexivity. Qed.
Lemma chosen_snoc_cases l p :
  (chosen (l ++ [p]) = chosen l) \/ (chosen (l ++ [p]) = chosen l ++ [p]).
Proof.
  unfold chosen. rewrite bloop_snoc. unfold bstep, mark.
  destruct (memN _ _); [left; reflexivity|]. destruct (_ <? _); [left; reflexivity|].
  destruct (p_kind p); cbn [allowlisted negb]; try (left; reflexivity); (destruct (_ <? _); [left; reflexivity|right; reflexivity]).
Qed.

Definition small (p : ptx) : Prop := p_gas p < 2 ^ 64 - 30000000 /\ p_size p < 2 ^ 64 - 1000000.
Lemma add64_small a b m : a <= m -> b < 2 ^ 64 - m -> add64 a b = a + b.
Proof. unfold add64. intros La Lb. apply N.mod_small. lia. Qed.

Lemma bloop_sums l : Forall small l ->
  s_gas (bloop l) = gas_of (chosen l) /\ s_size (bloop l) = size_of (chosen l) /\
  gas_of (chosen l) <= 30000000 /\ size_of (chosen l) <= 1000000 /\ Forall (fun p => allowlisted (p_kind p) = true) (chosen l).
Proof.
  induction l as [|p l IH] using rev_ind; intros F.
  - cbn. unfold gas_of, size_of, chosen. cbn. repeat split; try lia. constructor.
  - rewrite Forall_app in F. destruct F as [F Fp]. inversion Fp as [|? ? [Sg Ss] _]; subst. destruct (IH F) as (Eg & Es & Lg & Ls & K).
    unfold chosen in *. rewrite bloop_snoc. unfold bstep, mark.
    destruct (memN _ _); [repeat split; assumption|].
    rewrite Eg, Es. rewrite (add64_small (gas_of _) (p_gas p) 30000000), (add64_small (size_of _) (p_size p) 1000000) by assumption.
    unfold max_batch_gas, max_batch_size.
    destruct (N.ltb_spec 30000000 (gas_of (rev (s_txs (bloop l))) + p_gas p)) as [G|G]; [repeat split; assumption|].
    destruct (allowlisted (p_kind p)) eqn:A; cbn [negb].
    2:{ destruct (p_kind p); repeat split; assumption. }
    destruct (N.ltb_spec 1000000 (size_of (rev (s_txs (bloop l))) + p_size p)) as [Z|Z]; [repeat split; assumption|].
    cbn [s_gas s_size s_txs rev]. unfold gas_of, size_of in *. rewrite !map_app, !sumN_app. cbn [map]. rewrite !sumN_cons.
    change (sumN []) with 0. rewrite Forall_app. repeat split; try lia; [exact K|constructor; [exact A|constructor]].
Qed.

(** Why a transaction was left out. *)
Lemma bad_origin l a : In a (s_bad (bloop l)) -> exists pre q post, l = pre ++ q :: post /\ p_sender q = a /\ chosen (pre ++ [q]) = chosen pre.
Proof.
  induction l as [|p l IH] using rev_ind; intros I; [contradiction|].
  assert (Go : In a (s_bad (bloop l)) -> exists pre q post, l ++ [p] = pre ++ q :: post /\ p_sender q = a /\ chosen (pre ++ [q]) = chosen pre).
  { intros I'. destruct (IH I') as (pre & q & post & -> & E & C). exists pre, q, (post ++ [p]). rewrite <- app_assoc. auto. }
  assert (New : forall s', bloop (l ++ [p]) = s' -> s_txs s' = s_txs (bloop l) -> p_sender p = a ->
     exists pre q post, l ++ [p] = pre ++ q :: post /\ p_sender q = a /\ chosen (pre ++ [q]) = chosen pre).
  { intros s' E T Ea. exists l, p, []. split; [reflexivity|]. split; [exact Ea|]. unfold chosen. rewrite E, T. reflexivity. }
  pose proof (bloop_snoc l p) as B. rewrite B in I. unfold bstep, mark in I, B.
  destruct (memN _ _) eqn:M; [apply Go; exact I|].
  destruct (_ <? _) eqn:G in I; rewrite G in B.
  { destruct I as [E|I]; [|apply Go; exact I]. eapply New; [exact B|reflexivity|exact E]. }
  destruct (p_kind p) eqn:K; cbn [allowlisted negb] in I, B;
    try (destruct I as [E|I]; [|apply Go; exact I]; eapply New; [exact B|reflexivity|exact E]);
    (destruct (_ <? _) eqn:Z in I; rewrite Z in B; [destruct I as [E|I]; [|apply Go; exact I]; eapply New; [exact B|reflexivity|exact E]|apply Go; exact I]).
Qed.
Lemma left_out l p : Forall small (l ++ [p]) -> chosen (l ++ [p]) = chosen l ->
  (p_kind p = K4844 \/ p_kind p = K7702) \/
  30000000 < gas_of (chosen l) + p_gas p \/ 1000000 < size_of (chosen l) + p_size p \/
  exists pre q post, l = pre ++ q :: post /\ p_sender q = p_sender p /\ chosen (pre ++ [q]) = chosen pre.
Proof.
  intros F C. rewrite Forall_app in F. destruct F as [F Fp]. inversion Fp as [|? ? [Sg Ss] _]; subst.
  destruct (bloop_sums l F) as (Eg & Es & Lg & Ls & _). unfold chosen in C. rewrite bloop_snoc in C. unfold bstep, mark in C.
  destruct (memN (p_sender p) (s_bad (bloop l))) eqn:M.
  { right; right; right. apply bad_origin. apply memN_In. exact M. }
  rewrite Eg, Es in C. rewrite (add64_small (gas_of _) (p_gas p) 30000000), (add64_small (size_of _) (p_size p) 1000000) in C by assumption.
  unfold max_batch_gas, max_batch_size in C.
  destruct (N.ltb_spec 30000000 (gas_of (chosen l) + p_gas p)) as [G|G]; [auto|].
  destruct (p_kind p); cbn [allowlisted negb] in C; auto;
    (destruct (N.ltb_spec 1000000 (size_of (chosen l) + p_size p)) as [Z|Z]; [auto|];
     exfalso; cbn [s_txs rev] in C; apply (f_equal (@length _)) in C; rewrite app_length in C; cbn in C; lia).
Qed.
(** Each sender's chosen transactions are the first ones the pool offered. *)
Lemma bad_keeps l p a : In a (s_bad (bloop l)) -> In a (s_bad (bloop (l ++ [p]))).
Proof.
  rewrite bloop_snoc. unfold bstep, mark. destruct (memN _ _); [auto|]. destruct (_ <? _); [right; assumption|].
  destruct (p_kind p); cbn [allowlisted negb s_bad]; intros; try (right; assumption); (destruct (_ <? _); [right; assumption|assumption]).
Qed.
Lemma sender_prefix l a : exists rest, of_sender a l = of_sender a (chosen l) ++ rest /\ (rest <> [] -> In a (s_bad (bloop l))).
Proof.
  induction l as [|p l (rest & E & B)] using rev_ind; [exists []; split; [reflexivity|congruence]|].
  unfold of_sender in *. rewrite filter_app, E. cbn [filter].
  destruct (N.eqb_spec (p_sender p) a) as [Ea|Na].
  - destruct (memN (p_sender p) (s_bad (bloop l))) eqn:M.
    + exists (rest ++ [p]). unfold chosen. rewrite bloop_snoc. unfold bstep. rewrite M. rewrite app_assoc. split; [reflexivity|].
      intros _. rewrite <- Ea. apply memN_In. exact M.
    + assert (rest = []) as ->. { destruct rest as [|x r]; [reflexivity|]. exfalso. rewrite <- Ea in B. apply memN_nIn in M. apply M, B. discriminate. }
      rewrite app_nil_r. unfold chosen. rewrite bloop_snoc. unfold bstep, mark. rewrite M.
      assert (X : forall s', s_txs s' = s_txs (bloop l) -> In (p_sender p) (s_bad s') ->
        exists rest0, filter (fun p0 => p_sender p0 =? a) (rev (s_txs (bloop l))) ++ [p] = filter (fun p0 => p_sender p0 =? a) (rev (s_txs s')) ++ rest0 /\ (rest0 <> [] -> In a (s_bad s'))).
      { intros s' T I. exists [p]. rewrite T. split; [reflexivity|]. intros _. rewrite <- Ea. exact I. }
      assert (Y : forall s', s_txs s' = p :: s_txs (bloop l) ->
        exists rest0, filter (fun p0 => p_sender p0 =? a) (rev (s_txs (bloop l))) ++ [p] = filter (fun p0 => p_sender p0 =? a) (rev (s_txs s')) ++ rest0 /\ (rest0 <> [] -> In a (s_bad s'))).
      { intros s' T. exists []. rewrite T. cbn [rev]. rewrite filter_app. cbn [filter]. rewrite (proj2 (N.eqb_eq _ _) Ea), app_nil_r. split; [reflexivity|congruence]. }
      destruct (_ <? _); [apply X; [reflexivity|left; reflexivity]|].
      destruct (p_kind p); cbn [allowlisted negb]; try (apply X; [reflexivity|left; reflexivity]);
        (destruct (_ <? _); [apply X; [reflexivity|left; reflexivity]|apply Y; reflexivity]).
  - rewrite app_nil_r. destruct (chosen_snoc_cases l p) as [C|C]; rewrite C; exists rest.
    + split; [reflexivity|]. intros Nr. apply bad_keeps. auto.
    + rewrite filter_app. cbn [filter]. rewrite (proj2 (N.eqb_neq _ _) Na), app_nil_r. split; [reflexivity|]. intros Nr. apply bad_keeps. auto.
Qed.
Lemma chosen_in l p : In p (chosen l) -> In p l.
Proof.
  induction l as [|q l IH] using rev_ind; [cbn; auto|]. rewrite in_app_iff.
  destruct (chosen_snoc_cases l q) as [->| ->]; [auto|]. rewrite in_app_iff. cbn. tauto.
Qed.

(* accounts *)
Definition acc_ok (txs : list ptx) (m : list (N * (N * N))) : Prop :=
  NoDup (map fst m) /\ (forall a, In a (map fst m) <-> In a (map p_sender txs)) /\
  (forall a n c, In (a, (n, c)) m ->
     n = fold_right N.max 0 (map p_nonce (of_sender a txs)) /\ c = N.min u256_max (cost_of (of_sender a txs))).
Lemma fold_max_app l x : fold_right N.max 0 (l ++ [x]) = N.max (fold_right N.max 0 l) x.
Proof. induction l; cbn [app fold_right]; [lia|]. rewrite IHl. lia. Qed.
Lemma of_sender_nil a txs : ~ In a (map p_sender txs) -> of_sender a txs = [].
Proof.
  unfold of_sender. induction txs as [|p t IH]; cbn [map filter]; intros No; [reflexivity|].
  destruct (N.eqb_spec (p_sender p) a) as [Ea|_]; [exfalso; apply No; left; exact Ea|]. apply IH. intros I. apply No. right. exact I.
Qed.
Lemma acc_step txs m p : p_cost p <= u256_max -> acc_ok txs m -> acc_ok (txs ++ [p]) (upd_acc m p).
Proof.
  intros Lc (Nd & K & V). unfold upd_acc.
  destruct (find (fun e => fst e =? p_sender p) m) as [[a0 [n0 c0]]|] eqn:F.
  - apply find_some in F. destruct F as [I E]. apply N.eqb_eq in E. cbn in E. subst a0.
    assert (Km : map fst (map (fun e : N * (N * N) => if fst e =? p_sender p then (fst e, (N.max n0 (p_nonce p), N.min u256_max (c0 + p_cost p))) else e) m) = map fst m).
    { rewrite map_map. apply map_ext. intros e. destruct (_ =? _); reflexivity. }
    split; [rewrite Km; exact Nd|]. split.
    + intros a. rewrite Km, K, map_app, in_app_iff. cbn. split; [auto|]. intros [Q|[<-|[]]]; [exact Q|].
      apply K. apply (in_map fst) in I. exact I.
    + intros a n c J. apply in_map_iff in J. destruct J as ((a1 & n1 & c1) & J & I1). cbn [fst] in J.
      unfold of_sender in *. rewrite filter_app. cbn [filter].
      destruct (N.eqb_spec a1 (p_sender p)) as [->|Na].
      * injection J as <- <- <-. rewrite N.eqb_refl. destruct (V _ _ _ I) as [Vn Vc].
        rewrite !map_app. cbn [map]. rewrite fold_max_app, <- Vn. split; [reflexivity|].
        unfold cost_of in *. rewrite map_app, sumN_app. cbn [map]. rewrite sumN_cons. change (sumN []) with 0. rewrite Vc.
        lia.
      * injection J as <- <- <-. rewrite (proj2 (N.eqb_neq _ _) (not_eq_sym Na)), app_nil_r. apply V. exact I1.
  - assert (Nin : ~ In (p_sender p) (map fst m)).
    { intros I. apply in_map_iff in I. destruct I as ((a & x) & E & I). cbn in E. subst a.
      apply (find_none _ _ F) in I. cbn in I. rewrite N.eqb_refl in I. discriminate. }
    split; [|split].
    + rewrite map_app. cbn. apply NoDup_app_intro; [exact Nd|constructor; [intros []|constructor]|].
      intros x Hx [<-|[]]. contradiction.
    + intros a. rewrite !map_app, !in_app_iff, K. cbn. tauto.
    + intros a n c J. rewrite in_app_iff in J. unfold of_sender in *. rewrite filter_app. cbn [filter].
      destruct J as [J|[J|[]]].
      * destruct (N.eqb_spec (p_sender p) a) as [E|Na].
        { exfalso. apply Nin. rewrite E. apply in_map_iff. exists (a, (n, c)). auto. }
        rewrite app_nil_r. apply V. exact J.
      * injection J as <- <- <-. rewrite N.eqb_refl. fold (of_sender (p_sender p) txs). rewrite of_sender_nil by (rewrite <- K; exact Nin).
        cbn [app map fold_right]. unfold cost_of. cbn [map]. rewrite sumN_cons. change (sumN []) with 0. lia.
Qed.
Lemma acc_all txs : Forall (fun p => p_cost p <= u256_max) txs -> acc_ok txs (fold_left upd_acc txs []).
Proof.
  induction txs as [|p t IH] using rev_ind; intros F.
  - split; [constructor|]. split; [intros; cbn; tauto|intros ? ? ? []].
  - rewrite Forall_app in F. destruct F as [F Fp]. inversion Fp; subst. rewrite fold_left_app. cbn [fold_left]. apply acc_step; auto.
Qed.
Lemma changed_spec balance txs : Forall (fun p => p_cost p <= u256_max) txs ->
  NoDup (map a_addr (changed balance txs)) /\
  (forall a, In a (map a_addr (changed balance txs)) <-> In a (map p_sender txs)) /\
  (forall x, In x (changed balance txs) ->
     a_nonce x = fold_right N.max 0 (map p_nonce (of_sender (a_addr x) txs)) + 1 /\
     a_balance x = balance (a_addr x) - N.min u256_max (cost_of (of_sender (a_addr x) txs))).
Proof.
  intros F. destruct (acc_all txs F) as (Nd & K & V). unfold changed. rewrite map_map. cbn [a_addr]. split; [exact Nd|]. split; [exact K|].
  intros x I. apply in_map_iff in I. destruct I as ((a & n & c) & <- & I). destruct (V _ _ _ I) as [-> ->]. cbn. auto.
Qed.

Lemma enc_le_size l : (forall p, In p l -> lenN (p_enc p) <= p_size p) -> sumN (map lenN (map p_enc l)) <= size_of l.
Proof.
  unfold size_of. induction l as [|p t IH]; cbn [map]; intros L; [cbn; lia|]. rewrite !sumN_cons.
  assert (lenN (p_enc p) <= p_size p) by (apply L; left; reflexivity).
  assert (sumN (map lenN (map p_enc t)) <= sumN (map p_size t)) by (apply IH; intros; apply L; right; assumption). lia.
Qed.
Section Built.
Variable recover : bytes -> option tx.
(* the built batch at an honest validator *)
Lemma built_valid best bal benef v :
  Forall small best -> Forall (fun p => recover (p_enc p) = Some {| t_kind := p_kind p; t_gas := p_gas p |}) best ->
  Forall (fun p => lenN (p_enc p) <= p_size p) best -> chosen best <> [] ->
  valid recover v (o_batch (build_batch best bal benef (v_epoch v) (v_worker v) (v_fee v))).
Proof.
  intros S R L Ne. destruct (bloop_sums best S) as (_ & _ & G & Z & K). rewrite Forall_forall in R, L.
  unfold build_batch, valid. cbn [o_batch b_worker b_epoch b_fee b_txs]. do 3 (split; [reflexivity|]).
  split; [destruct (chosen best); [contradiction|discriminate]|].
  split.
  - enough (sumN (map lenN (map p_enc (chosen best))) <= size_of (chosen best)) by lia.
    apply enc_le_size. intros; apply L, chosen_in; assumption.
  - exists (map (fun p => {| t_kind := p_kind p; t_gas := p_gas p |}) (chosen best)).
    split; [|split].
    + assert (R' : forall p, In p (chosen best) -> recover (p_enc p) = Some {| t_kind := p_kind p; t_gas := p_gas p |}) by (intros; apply R, chosen_in; assumption).
      clear - R'. induction (chosen best); cbn [map]; constructor; [apply R'; left; reflexivity|apply IHl; intros; apply R'; right; assumption].
    + apply Forall_forall. intros t I. apply in_map_iff in I. destruct I as (p & <- & I). cbn. rewrite Forall_forall in K. apply K in I.
      destruct (p_kind p); cbn in I; auto; discriminate.
    + rewrite map_map. cbn [t_gas]. exact G.
Qed.

End Built.
(* ---------- the quorum waiter ---------- *)
Lemma qloop_ok n : forall answers total avail rejected,
  qloop n total avail rejected answers = Some QOk -> quorum n <= total + accepts answers.
Proof.
  induction answers as [|a t IH]; cbn [qloop]; intros total avail rejected E.
  - destruct (_ =? _); discriminate.
  - unfold accepts in *. destruct a; cbn [filter length].
    + destruct (N.leb_spec (quorum n) (total + 1)); [lia|].
      destruct (_ <? _); [discriminate|]. destruct (_ <? _); [discriminate|]. apply IH in E. lia.
    + destruct (_ <? _); [discriminate|]. destruct (_ <? _); [discriminate|]. apply IH in E. lia.
    + destruct (_ <? _); [discriminate|]. destruct (_ <? _); [discriminate|]. apply IH in E. lia.
Qed.
(* total + avail + rejected <= n throughout *)
Lemma qloop_fail n : forall answers total avail rejected r,
  N.of_nat (length answers) <= avail -> total + avail + rejected <= n -> total < quorum n ->
  qloop n total avail rejected answers = Some r -> r <> QOk ->
  (total + accepts answers + (avail - N.of_nat (length answers)) < quorum n) /\
  (r = QRejected -> n - quorum n < rejected + rejects answers).
Proof.
  induction answers as [|a t IH]; cbn [qloop]; intros total avail rejected r L I Q E Nr.
  - destruct (N.eqb_spec avail 0) as [->|]; [|discriminate]. injection E as <-. cbn. split; [lia|discriminate].
  - cbn [length] in L. unfold accepts, rejects in *. destruct a; cbn [filter length].
    + destruct (N.leb_spec (quorum n) (total + 1)) as [|Q']; [injection E as <-; congruence|].
      assert (A : forall l : list answer, (length (filter (fun a => match a with AAccept => true | _ => false end) l) <= length l)%nat) by (intros; apply filter_length_le').
      specialize (A t).
      destruct (N.ltb_spec (n - quorum n) rejected) as [R|R]; [injection E as <-; split; [lia|intros _; lia]|].
      destruct (N.ltb_spec (total + 1 + (avail - 1)) (quorum n)) as [Z|Z]; [injection E as <-; split; [lia|discriminate]|].
      apply IH in E; [|lia|lia|lia|exact Nr]. destruct E as [E1 E2]. split; [lia|]. intros Er. specialize (E2 Er). lia.
    + assert (A : forall l : list answer, (length (filter (fun a => match a with AAccept => true | _ => false end) l) <= length l)%nat) by (intros; apply filter_length_le').
      specialize (A t).
      destruct (N.ltb_spec (n - quorum n) (rejected + 1)) as [R|R]; [injection E as <-; split; [lia|intros _; lia]|].
      destruct (N.ltb_spec (total + (avail - 1)) (quorum n)) as [Z|Z]; [injection E as <-; split; [lia|discriminate]|].
      apply IH in E; [|lia|lia|lia|exact Nr]. destruct E as [E1 E2]. split; [lia|]. intros Er. specialize (E2 Er). lia.
    + assert (A : forall l : list answer, (length (filter (fun a => match a with AAccept => true | _ => false end) l) <= length l)%nat) by (intros; apply filter_length_le').
      specialize (A t).
      destruct (N.ltb_spec (n - quorum n) rejected) as [R|R]; [injection E as <-; split; [lia|intros _; lia]|].
      destruct (N.ltb_spec (total + (avail - 1)) (quorum n)) as [Z|Z]; [injection E as <-; split; [lia|discriminate]|].
      apply IH in E; [|lia|lia|lia|exact Nr]. destruct E as [E1 E2]. split; [lia|]. intros Er. specialize (E2 Er). lia.
Qed.
Lemma qloop_decides n : forall answers total avail rejected, N.of_nat (length answers) = avail ->
  exists r, qloop n total avail rejected answers = Some r.
Proof.
  induction answers as [|a t IH]; cbn [qloop length]; intros total avail rejected L.
  - replace avail with 0 by (cbn in L; lia). rewrite N.eqb_refl. eauto.
  - destruct a; repeat (match goal with |- exists r, (if ?x then _ else _) = _ => destruct x; [eauto|] end); apply IH; lia.
Qed.
(** Enough acceptances decide for success whatever the order and whoever else answers. *)
Lemma qloop_enough n : forall answers total avail rejected,
  N.of_nat (length answers) <= avail -> total + avail + rejected <= n -> total < quorum n -> quorum n <= total + accepts answers ->
  qloop n total avail rejected answers = Some QOk.
Proof.
  intros answers total avail rejected L I Q E.
  assert (D : exists r, qloop n total avail rejected answers = Some r).
  { revert total avail rejected L I Q E. induction answers as [|a t IH]; intros total avail rejected L I Q E; [unfold accepts in E; cbn in E; lia|].
    cbn [qloop length] in *. unfold accepts in *.
    destruct a; cbn [filter length] in E.
    - destruct (N.leb_spec (quorum n) (total + 1)); [eauto|].
      destruct (N.ltb_spec (n - quorum n) rejected); [eauto|]. destruct (_ <? _); [eauto|]. apply IH; lia.
    - destruct (N.ltb_spec (n - quorum n) (rejected + 1)); [eauto|]. destruct (_ <? _); [eauto|]. apply IH; lia.
    - destruct (N.ltb_spec (n - quorum n) rejected); [eauto|]. destruct (_ <? _); [eauto|]. apply IH; lia. }
  destruct D as [r D]. destruct r; [exact D| |]; (apply qloop_fail in D; [|lia|lia|lia|discriminate]; lia).
Qed.
Lemma quorum_gt1 n : 2 <= n -> 1 < quorum n. Proof. unfold quorum. lia. Qed.
