(** C60: transactions at a node outside the committee. *)
From Verif Require Import Util FwModel FwSpec FwHosts FwNames FwWalk FwBatch FwNode.
From Coq Require Import String Ascii.
Import List ListNotations.
Local Open Scope N_scope.

(** A host may be dialled exactly when it is not one of the local addresses and names. *)
Theorem C60_hosts h : (forall g, h = Some g -> host_wf g) -> (check_host h = None <-> public_host h).
Proof. apply check_host_spec. Qed.

(** Names and messages are compared with exactly the 26 Latin capitals mapped to small letters, position by position. *)
Theorem C60_lowercase s i : String.get i (lower s) = option_map (fun a =>
  let n := N_of_ascii a in if (65 <=? n) && (n <=? 90) then ascii_of_N (n + 32) else a) (String.get i s).
Proof. revert i. induction s as [|a s IH]; intros [|i]; auto. apply IH. Qed.

(** What each answer counts as. *)
Theorem C60_answers :
  (forall d, d <= 5000 -> counts_as (ROk, d) = Delivered) /\
  (forall r d, 5000 < d -> counts_as (r, d) = Unreachable) /\
  (forall d, d <= 5000 -> counts_as (RLocal, d) = TryNext /\ counts_as (RNoVerdict, d) = Unreachable) /\
  forall code msg d, d <= 5000 ->
    (counts_as (RErrorResp code msg, d) = TryNext <-> transient code \/ (~ already_known msg /\ about_this_node code msg)) /\
    (counts_as (RErrorResp code msg, d) = Delivered <-> ~ transient code /\ already_known msg) /\
    (forall why, counts_as (RErrorResp code msg, d) = Rejected why <->
       why = msg /\ ~ transient code /\ ~ already_known msg /\ ~ about_this_node code msg) /\
    counts_as (RErrorResp code msg, d) <> Unreachable.
Proof.
  assert (X : forall r d, d <= 5000 -> counts_as (r, d) = classify r).
  { intros r d H. unfold counts_as. cbn [fst snd]. replace (5000 <? d) with false by lia. reflexivity. }
  split; [intros d H; rewrite X; auto|]. split.
  { intros r d H. unfold counts_as. cbn [fst snd]. replace (5000 <? d) with true by lia. reflexivity. }
  split; [intros d H; rewrite !X; auto|]. intros code msg d H. rewrite X; auto. apply classify_server_spec.
Qed.

Definition earlier (k : task) (j : nat) (u : N) : Prop := unreach (flat_map t_dials (firstn j (k_res k))) u.

Lemma run_ok env pool slots fb prov now txs :
  let k := run_task env pool slots fb prov now txs in
  map t_tx (k_res k) = txs /\
  (forall j r, nth_error (k_res k) j = Some r -> tx_ok (env j) (requeue_one pool j (t_tx r)) slots fb prov now (earlier k j) r) /\
  (forall u, In u (k_un k) <-> unreach (flat_map t_dials (k_res k)) u) /\
  k_demo k = demotions env 0 (k_res k) /\ k_lift k = [] /\
  k_tally k = fold_left (add_tally now) (k_res k) (mkTally 0 0 0 0 0) /\ k_t k <= now + 120000.
Proof.
  cbn zeta. unfold run_task.
  destruct (batch_spec env pool slots fb prov now txs 0 (mkTask now [] [] [] [] (mkTally 0 0 0 0 0))) as [nr (A & B & C & D & E & F & G & H)]; [cbn; lia|cbn; lia|].
  set (k := batch_loop _ _ _ _ _ _ _ _ _ _) in *. cbn [k_res k_un k_demo k_lift k_tally app] in *. rewrite A.
  assert (Z : forall l u, known_after [] l u <-> unreach (flat_map t_dials l) u).
  { intros l u. unfold known_after. split; auto. intros [[]|X]; auto. }
  split; auto. split.
  { intros j r Hr. specialize (C j r Hr). cbn [Nat.add] in C. eapply tx_ok_ext; [|exact C]. intros u. unfold earlier. rewrite A. apply Z. }
  split; [intros u; rewrite D; apply Z|]. auto.
Qed.

(** Every transaction of an admitted batch meets exactly one fate, for the reasons given in the specification. *)
Theorem C60_batch env pool slots fb prov now txs :
  let k := run_task env pool slots fb prov now txs in
  map t_tx (k_res k) = txs /\ k_t k <= now + 120000 /\
  forall j r, nth_error (k_res k) j = Some r ->
    exists accepted, tx_ok (env j) accepted slots fb prov now (earlier k j) r /\
      (accepted = true <-> exists p, pool = Some p /\ x_sender (t_tx r) <> None /\ p j = true).
Proof.
  cbn zeta. destruct (run_ok env pool slots fb prov now txs) as (A & B & C & D & E & F & G). split; auto. split; auto.
  intros j r H. exists (requeue_one pool j (t_tx r)). split; auto. unfold requeue_one. clear.
  destruct pool as [p|]; [|split; [discriminate|intros (p & X & _); discriminate X]].
  destruct (x_sender (t_tx r)); split.
  - intros H. exists p. split; auto. split; [discriminate|auto].
  - intros (p' & X & _ & Y). injection X as <-. exact Y.
  - discriminate.
  - intros (p' & _ & X & _). contradiction X; auto.
Qed.

(** The tallies are the counts of the fates, and no transaction is left out or counted twice. *)
Theorem C60_tallies env pool slots fb prov now txs :
  let k := run_task env pool slots fb prov now txs in
  let y := k_tally k in
  y_delivered y = count is_delivered (k_res k) /\ y_rejected y = count is_rejected (k_res k) /\
  y_noverdict y = count is_back (k_res k) /\ y_requeued y = count is_taken_back (k_res k) /\
  abandoned txs y = count (by_deadline now) (k_res k) /\
  (y_delivered y + y_rejected y + y_noverdict y = length txs)%nat /\
  (y_unreached y + abandoned txs y = y_noverdict y)%nat /\
  k_demo k = demotions env 0 (k_res k).
Proof.
  cbn zeta. destruct (run_ok env pool slots fb prov now txs) as (A & B & C & D & E & F & G).
  set (k := run_task _ _ _ _ _ _ _) in *. clearbody k.
  destruct (fold_tally now (k_res k) (mkTally 0 0 0 0 0)) as (T1 & T2 & T3 & T4 & T5). rewrite <- F in *.
  cbn [y_delivered y_rejected y_unreached y_noverdict y_requeued Nat.add] in *.
  pose proof (count_split now (k_res k)) as S.
  assert (L : length txs = length (k_res k)) by (rewrite <- A, map_length; reflexivity).
  assert (Bk : (count is_delivered (k_res k) + count is_rejected (k_res k) + count is_back (k_res k) = length (k_res k))%nat).
  { clear. unfold count. induction (k_res k) as [|r l IH]; [reflexivity|]. cbn [filter].
    assert (X : (is_delivered r = true /\ is_rejected r = false /\ is_back r = false) \/ (is_delivered r = false /\ is_rejected r = true /\ is_back r = false) \/
                (is_delivered r = false /\ is_rejected r = false /\ is_back r = true)).
    { unfold is_delivered, is_rejected, is_back. destruct (t_fate r); auto. }
    destruct X as [(-> & -> & ->)|[(-> & -> & ->)|(-> & -> & ->)]]; cbn [length]; lia. }
  unfold abandoned. rewrite L, T1, T2, T3, T4, T5.
  repeat split; auto; lia.
Qed.

(** A rejection needs two validators, unless nobody else could be asked: a single validator cannot censor while an accepting one
    is reachable and time remains. *)
Theorem C60_no_single_censor env pool slots fb prov now txs j r why v :
  let k := run_task env pool slots fb prov now txs in
  nth_error (k_res k) j = Some r -> t_fate r = FRejected why -> t_cut r = None ->
  In v fb -> counts_as (env j v) = Delivered ->
  (exists a b, In a (rejections (t_dials r)) /\ In b (rejections (t_dials r)) /\ d_key a <> d_key b) \/
  bm_lookup v prov = None \/
  exists u, bm_lookup v prov = Some u /\ (earlier k j u \/ unreach (t_dials r) u).
Proof.
  cbn zeta. intros Hr Hf Hc Hv Hd. destruct (run_ok env pool slots fb prov now txs) as (_ & B & _).
  set (k := run_task _ _ _ _ _ _ _) in *. clearbody k.
  destruct (B j r Hr) as (ord & O & (S1 & S2 & S3 & S4 & S5) & _ & _ & F). unfold fate_ok in F. rewrite Hf in F.
  destruct F as (_ & ND & [(a & d & E1 & E2 & E3 & E4)|(d & E1 & E2 & E3)]).
  - left. destruct (rejections a) as [|x [|]] eqn:Ra; try discriminate E3. exists x, d.
    assert (Hx : In x a) by (assert (In x (rejections a)) by (rewrite Ra; left; auto); apply filter_In in H; tauto).
    assert (Rx : is_rejection x = true) by (assert (In x (rejections a)) by (rewrite Ra; left; auto); apply filter_In in H; tauto).
    unfold rejections. rewrite !filter_In, E1. split; [split; auto; apply in_or_app; auto|]. split.
    + split; [apply in_or_app; right; left; auto|]. unfold is_rejection. rewrite E2. auto.
    + intros X. rewrite E1, map_app in S2. apply NoDup_app_elim in S2 as (_ & _ & S2). apply (S2 (d_key x)); [apply in_map; auto|]. rewrite X. left. reflexivity.
  - right. specialize (E3 Hc v).
    assert (Ho : In v ord) by (destruct O as [(o & _ & ->)|[_ ->]]; [right|]; auto).
    destruct (E3 Ho) as [X|X]; [|exact X]. exfalso.
    apply in_map_iff in X as (x & X1 & X2). rewrite Forall_forall in S1. destruct (S1 x X2) as [_ M]. rewrite X1, Hd in M.
    unfold no_delivery in ND. rewrite Forall_forall in ND. exact (ND x X2 M).
Qed.

(** The validator of the sender's slot is asked first, whenever it has an endpoint not found unreachable. *)
Lemma first_split (c : N) l : In c l -> exists p q, l = p ++ c :: q /\ ~ In c p.
Proof.
  induction l as [|x l IH]; [contradiction|]. intros H. destruct (N.eq_dec x c) as [->|Ne].
  - exists [], l. split; auto.
  - destruct IH as (p & q & -> & Hp); [destruct H; [contradiction|auto]|]. exists (x :: p), q. split; auto. intros [X|X]; auto.
Qed.
Theorem C60_owner_first env pool slots fb prov now txs j r o u :
  let k := run_task env pool slots fb prov now txs in
  nth_error (k_res k) j = Some r -> owns slots (t_tx r) o -> bm_lookup o prov = Some u -> ~ earlier k j u ->
  match t_dials r with
  | d :: _ => d_key d = o
  | [] => t_cut r = Some o \/ t_start r = now + 120000
  end.
Proof.
  cbn zeta. intros Hr Ho Hu Hk. destruct (run_ok env pool slots fb prov now txs) as (_ & B & _).
  set (k := run_task _ _ _ _ _ _ _) in *. clearbody k.
  destruct (B j r Hr) as (ord & O & (S1 & S2 & S3 & S4 & S5) & _ & C & F).
  destruct O as [(o' & Ho' & ->)|[O _]]; [|destruct (O o Ho)].
  assert (o' = o). { destruct Ho as (v & E1 & E2), Ho' as (v' & E1' & E2'). congruence. } subst o'.
  assert (NA : forall p, ~ all_asked prov (earlier k j) (o :: p) []).
  { intros p X. destruct (X o (or_introl eq_refl)) as [[]|[Y|(u' & Y & [Z|(d & [] & _)])]]; [congruence|].
    apply Hk. congruence. }
  destruct (t_dials r) as [|d ds] eqn:Ed.
  - destruct (t_cut r) as [c|] eqn:Ec.
    + left. destruct (N.eq_dec c o) as [->|Ne]; auto. exfalso. destruct (C c Ec) as (C1 & _ & _ & C4). rewrite Ed in C4.
      destruct C1 as [C1|C1]; [congruence|]. destruct (first_split c fb C1) as (p & q & E & Hp).
      apply (NA p). apply (C4 (o :: p) q); [rewrite E; reflexivity|]. intros [X|X]; auto.
    + right. unfold fate_ok in F. rewrite Ed, Ec in F. destruct (t_fate r).
      * destruct F as (_ & _ & a & x & X & _). destruct a; discriminate X.
      * destruct F as (_ & _ & [(a & x & X & _)|(x & X & _)]); [destruct a; discriminate X|discriminate X].
      * destruct F as (_ & _ & _ & _ & X). destruct (X eq_refl) as [Y|[Y _]]; [destruct (NA fb Y)|auto].
  - destruct (N.eq_dec (d_key d) o) as [|Ne]; auto. exfalso.
    assert (Hin : In (d_key d) fb).
    { assert (X : In (d_key d) (o :: fb)) by (apply (subseq_in _ _ _ S3); left; reflexivity). destruct X; [congruence|auto]. }
    destruct (first_split _ fb Hin) as (p & q & E & Hp). apply (NA p). apply (S4 [] d ds (o :: p) q); auto.
    + rewrite E at 1. reflexivity.
    + intros [X|X]; auto.
Qed.

(** No run of a batch ever lifts a demotion: an endpoint it found unreachable is not asked again, so the delivery that would lift it
    does not happen (forward.rs 1001-1016 is dead code; the text at 583-590 and 953-955 promises it). *)
Theorem C60_lift_refuted env pool slots fb prov now txs : k_lift (run_task env pool slots fb prov now txs) = [].
Proof. apply run_ok. Qed.
Theorem C60_no_redial env pool slots fb prov now txs :
  let all := flat_map t_dials (k_res (run_task env pool slots fb prov now txs)) in
  forall a d b, all = a ++ d :: b -> ~ unreach a (d_url d).
Proof.
  cbn zeta. destruct (run_ok env pool slots fb prov now txs) as (_ & B & _).
  set (k := run_task _ _ _ _ _ _ _) in *. clearbody k. unfold earlier in B.
  assert (G : forall pre l, (forall j r, nth_error l j = Some r -> forall a d b, t_dials r = a ++ d :: b ->
     ~ unreach (pre ++ flat_map t_dials (firstn j l)) (d_url d) /\ ~ unreach a (d_url d)) ->
     forall a d b, flat_map t_dials l = a ++ d :: b -> ~ unreach (pre ++ a) (d_url d)).
  { clear. intros pre l. revert pre. induction l as [|r l IH]; intros pre H a d b E; [destruct a; discriminate E|].
    cbn [flat_map] in E.
    destruct (Nat.lt_ge_cases (length a) (length (t_dials r))) as [L|L].
    - assert (Hs : exists b', t_dials r = a ++ d :: b').
      { revert E L. clear. generalize (t_dials r) as l1. induction a as [|x a IHa]; intros [|y l1] E L; cbn in L; try lia.
        - injection E as <- E. exists l1. reflexivity.
        - injection E as <- E. destruct (IHa l1 E) as [b' ->]; [lia|]. exists b'. reflexivity. }
      destruct Hs as [b' Hb]. destruct (H 0%nat r eq_refl a d b' Hb) as [X Y]. cbn [firstn flat_map] in X. rewrite app_nil_r in X.
      rewrite unreach_app. intuition.
    - assert (Hs : exists a', a = t_dials r ++ a' /\ flat_map t_dials l = a' ++ d :: b).
      { revert E L. clear. generalize (t_dials r) as l1. intros l1. revert a. induction l1 as [|y l1 IHl]; intros a E L.
        - exists a. auto.
        - destruct a as [|x a]; cbn in L; [lia|]. injection E as <- E. destruct (IHl a E) as (a' & -> & E'); [lia|]. exists a'. auto. }
      destruct Hs as (a' & -> & E'). rewrite app_assoc. apply (IH (pre ++ t_dials r)) with (b := b); auto.
      intros j r0 Hj a1 d1 b1 E1. specialize (H (S j) r0 Hj a1 d1 b1 E1). cbn [firstn flat_map] in H. rewrite app_assoc in H. exact H. }
  intros a d b E. apply (G [] (k_res k)) with (b := b); auto.
  intros j r Hj a1 d1 b1 E1. destruct (B j r Hj) as (ord & _ & (_ & _ & _ & _ & S5) & _). apply (S5 a1 d1 b1 E1).
Qed.

(** ---------- admission, over every history ---------- *)
Section Over.
Variable private_ok : bool.
Variable host_of : N -> option fhost.
Variable parses : N -> bool.

(** A batch is admitted exactly when it and the committee are non-empty, fewer than 64 forwards are running and some advertised
    endpoint is usable; its endpoints are then exactly the usable advertised ones. *)
Theorem C60_admission rot evs now txs slots rpcs r s' :
  (forall u g, host_of u = Some g -> host_wf g) ->
  forward_txns private_ok host_of parses now txs slots rpcs (snd (frun private_ok host_of parses rot evs)) = (r, s') ->
  (r <> None <-> txs <> [] /\ slots <> [] /\ (n_live (snd (frun private_ok host_of parses rot evs)) < 64)%nat /\
                 exists k u, In (k, u) rpcs /\ usable private_ok host_of parses evs now u) /\
  (forall ad, r = Some ad ->
     a_now ad = now /\ a_txs ad = txs /\ a_slots ad = slots /\ Permutation (a_fallbacks ad) (bm_keys (a_prov ad)) /\
     NoDup (a_fallbacks ad) /\
     (forall k u, bm_lookup k (a_prov ad) = Some u -> In (k, u) rpcs /\ usable private_ok host_of parses evs now u) /\
     (forall k, In k (bm_keys (a_prov ad)) <-> exists u, In (k, u) rpcs /\ usable private_ok host_of parses evs now u) /\
     (NoDup (map fst rpcs) -> forall k u, bm_lookup k (a_prov ad) = Some u <-> In (k, u) rpcs /\ usable private_ok host_of parses evs now u)).
Proof using.
  intros W E. pose proof (frun_inv private_ok host_of parses W rot evs) as NI.
  destruct (forward_inv private_ok host_of parses W evs _ now txs slots rpcs r s' NI E) as (_ & A & B & _). destruct NI as (I & D & _).
  split.
  - rewrite A. unfold considered. split; [intros ((X1 & X2 & X3) & X4 & X5); auto|].
    intros (X1 & X2 & X4 & X5). split; auto. split; auto. split; auto. destruct X5 as (k & u & X & _). intros ->. destruct X.
  - intros ad Er. destruct (B ad Er) as (B1 & B2 & B3 & B4 & B5 & B6 & B7). split; auto. split; auto. split; auto.
    assert (P : Permutation (a_fallbacks ad) (bm_keys (a_prov ad))) by (rewrite B4; apply rotated_perm).
    split; auto. split; [apply (Permutation_NoDup (Permutation_sym P)); apply bm_NoDup; auto|].
    assert (U : exists f, a_prov ad = bm_of_list (filter f rpcs) /\
                  forall k u, In (k, u) rpcs -> (f (k, u) = true <-> usable private_ok host_of parses evs now u)).
    { eexists. split; [exact B7|]. intros k u X. exact (usable_iff private_ok host_of parses W evs now rpcs _ u I D (in_map snd _ _ X)). }
    clear B7. destruct U as (f & B7 & U).
    assert (F : forall k u, In (k, u) (filter f rpcs) <-> In (k, u) rpcs /\ usable private_ok host_of parses evs now u).
    { intros k u. rewrite filter_In. split; intros [X Y]; (split; [exact X|apply (U k u X); exact Y]). }
    rewrite B7. split; [|split].
    + intros k u X. apply of_list_lookup in X. apply F. exact X.
    + intros k. rewrite bm_of_list_keys, in_map_iff. split.
      * intros ([k' u] & X & Y). cbn in X. subst k'. exists u. apply F. exact Y.
      * intros (u & X). exists (k, u). split; auto. apply F. exact X.
    + intros ND k u. rewrite of_list_lookup_iff; [apply F|].
      clear -ND. induction rpcs as [|x l IH]; cbn [filter map]; [constructor|]. inversion ND; subst.
      destruct (f x); cbn [map]; auto. constructor; auto. intros X. apply H1. apply in_map_iff in X as (y & Y1 & Y2). apply filter_In in Y2 as [Y2 _].
      apply in_map_iff. exists y. auto.
Qed.

(** At most 64 forwards run at a time. *)
Theorem C60_capacity rot evs : (forall u g, host_of u = Some g -> host_wf g) ->
  (length (fst (frun private_ok host_of parses rot evs)) - length (filter is_done evs) <= 64)%nat.
Proof using.
  intros W. destruct (frun_inv private_ok host_of parses W rot evs) as (_ & _ & A & B). lia.
Qed.

(** The worker tells the builder the batch is taken exactly when a task took it (or there was nothing to take). *)
Theorem C60_disburse rot evs now txs slots found ok r s' :
  (forall u g, host_of u = Some g -> host_wf g) ->
  disburse private_ok host_of parses now txs slots found (snd (frun private_ok host_of parses rot evs)) = (ok, r, s') ->
  (ok = true <-> txs = [] \/ r <> None) /\
  (r <> None <-> txs <> [] /\ slots <> [] /\ (n_live (snd (frun private_ok host_of parses rot evs)) < 64)%nat /\
     exists rpcs k u, found = Some rpcs /\ In (k, u) rpcs /\ usable private_ok host_of parses evs now u) /\
  (forall ad, r = Some ad -> a_txs ad = txs).
Proof using.
  intros W E. unfold disburse in E. destruct txs as [|x txs].
  { inversion E; subst. split; [split; auto|]. split; [|intros ad X; discriminate X]. split; [intros X; contradiction X; auto|intros (X & _); contradiction X; auto]. }
  assert (N0 : forall l : list (N * N), found = Some l -> l = [] -> (None : option admitted) <> None <-> x :: txs <> [] /\ slots <> [] /\ (n_live (snd (frun private_ok host_of parses rot evs)) < 64)%nat /\
     exists rpcs k u, found = Some rpcs /\ In (k, u) rpcs /\ usable private_ok host_of parses evs now u).
  { intros l -> ->. split; [intros X; contradiction X; auto|]. intros (_ & _ & _ & rpcs & k & u & X & Y & _). injection X as <-. destruct Y. }
  destruct found as [rpcs|].
  - destruct rpcs as [|e rpcs].
    + inversion E; subst. split; [split; [discriminate|intros [X|X]; [discriminate X|contradiction X; auto]]|]. split; [apply (N0 []); auto|intros ad X; discriminate X].
    + destruct (forward_txns _ _ _ _ _ _ _ _) as [r0 s0] eqn:F. inversion E; subst r0 s0.
      destruct (C60_admission _ _ _ _ _ _ _ _ W F) as [A B].
      split; [|split].
      * destruct r; split; intros X; auto; try discriminate; [right; discriminate|destruct X as [X|X]; [discriminate X|contradiction X; auto]].
      * rewrite A. split.
        -- intros (X1 & X2 & X3 & k & u & X4 & X5). split; auto. split; auto. split; auto. exists (e :: rpcs), k, u. auto.
        -- intros (X1 & X2 & X3 & rp & k & u & X0 & X4 & X5). injection X0 as <-. split; auto. split; auto. split; auto. exists k, u. auto.
      * intros ad X. apply (B ad X).
  - inversion E; subst. split; [split; [discriminate|intros [X|X]; [discriminate X|contradiction X; auto]]|].
    split; [|intros ad X; discriminate X]. split; [intros X; contradiction X; auto|]. intros (_ & _ & _ & rpcs & k & u & X & _). discriminate X.
Qed.

(** Batch after batch the fallback order turns by one: of [n] batches in a row with the same [n] usable validators each validator
    comes first in exactly one (short of the counter's wrap at 2^64). *)
Theorem C60_rotation :
  (forall rot evs now txs slots rpcs ad s', (forall u g, host_of u = Some g -> host_wf g) -> rot < 18446744073709551616 ->
     forward_txns private_ok host_of parses now txs slots rpcs (snd (frun private_ok host_of parses rot evs)) = (Some ad, s') ->
     a_fallbacks ad = rotated (bm_keys (a_prov ad))
       ((rot + N.of_nat (length (fst (frun private_ok host_of parses rot evs)))) mod 18446744073709551616)) /\
  (forall l c, l <> [] -> exists l1 l2, l = l1 ++ l2 /\ rotated l c = l2 ++ l1 /\ N.of_nat (length l1) = c mod N.of_nat (length l)) /\
  (forall l c v, NoDup l -> In v l -> exists j, j < N.of_nat (length l) /\ hd_error (rotated l (c + j)) = Some v /\
     forall j', j' < N.of_nat (length l) -> hd_error (rotated l (c + j')) = Some v -> j' = j).
Proof using.
  split; [|split].
  - intros rot evs now txs slots rpcs ad s' W Hr E. pose proof (frun_inv private_ok host_of parses W rot evs) as NI.
    destruct (forward_inv private_ok host_of parses W evs _ now txs slots rpcs _ s' NI E) as (_ & _ & B & _).
    destruct (B ad eq_refl) as (_ & _ & _ & B4 & _). rewrite B4, (rot_count private_ok host_of parses W); auto.
  - apply rotated_split.
  - clear. intros l c v ND Hv. destruct (In_nth_error _ _ Hv) as [i Hi].
    assert (Li : (i < length l)%nat) by (apply nth_error_Some; congruence).
    assert (Hn : l <> []) by (intros ->; destruct Hv).
    set (n := N.of_nat (length l)). assert (Hn0 : n <> 0) by (subst n; destruct l; [contradiction|cbn; lia]).
    assert (Key : forall j, j < n -> (hd_error (rotated l (c + j)) = Some v <-> (c + j) mod n = N.of_nat i)).
    { intros j Hj. pose proof (N.mod_lt (c + j) n Hn0) as Hm. set (m := N.to_nat ((c + j) mod n)).
      assert (Hm' : (m < length l)%nat) by (subst m n; lia).
      rewrite <- (rotated_first l (c + j) m) by (auto; subst m; fold n; lia). split.
      - intros H. assert (m = i) by (apply (proj1 (NoDup_nth_error l) ND); auto; congruence). lia.
      - intros H. replace m with i by lia. exact Hi. }
    pose proof (N.mod_lt c n Hn0) as Hc.
    exists ((N.of_nat i + n - c mod n) mod n). split; [apply N.mod_lt; auto|]. split.
    + apply Key; [apply N.mod_lt; auto|]. rewrite N.add_mod_idemp_r by auto.
      replace (c + (N.of_nat i + n - c mod n)) with (N.of_nat i + (c / n + 1) * n).
      * rewrite N.mod_add by auto. apply N.mod_small. subst n. lia.
      * pose proof (N.div_mod c n Hn0). nia.
    + intros j' Hj' H. apply Key in H; auto.
      assert (E : N.of_nat i = (c + j') mod n) by auto. rewrite E.
      assert (X : c mod n + j' < n \/ n <= c mod n + j') by lia.
      rewrite N.add_mod, (N.mod_small j' n) by auto. destruct X as [X|X].
      * rewrite (N.mod_small (c mod n + j')) by auto. replace (c mod n + j' + n - c mod n) with (j' + 1 * n) by lia.
        rewrite N.mod_add, N.mod_small; auto.
      * replace ((c mod n + j') mod n) with (c mod n + j' - n).
        -- replace (c mod n + j' - n + n - c mod n) with j' by lia. rewrite N.mod_small; auto.
        -- apply (N.mod_unique _ _ 1); lia.
Qed.
End Over.

(** ---------- the builder's pool ---------- *)
Lemma in_backs k t i : In (t, i) (backs k) <-> exists r, In r (k_res k) /\ t_fate r = FBack true /\ t_back r = t /\ x_id (t_tx r) = i.
Proof.
  unfold backs. rewrite in_flat_map. split.
  - intros (r & H & X). exists r. destruct (t_fate r) as [| |[|]]; try destruct X as [X|[]]; try contradiction. injection X as <- <-. auto.
  - intros (r & H & E & <- & <-). exists r. rewrite E. split; auto. left. reflexivity.
Qed.
Lemma in_prune txs p i : In i (prune txs p) <-> In i p /\ ~ In i (map x_id txs).
Proof. unfold prune. rewrite filter_In, negb_true_iff, memN_nIn. reflexivity. Qed.
Lemma back_ids env pool slots fb prov now txs r :
  In r (k_res (run_task env pool slots fb prov now txs)) -> In (x_id (t_tx r)) (map x_id txs).
Proof.
  intros H. destruct (run_ok env pool slots fb prov now txs) as (A & _). rewrite <- A at 1. rewrite map_map.
  apply (in_map (fun x => x_id (t_tx x)) _ _ H).
Qed.

(** After the batch the pool holds what it held besides the batch, and what the task put back at or after the prune. *)
Theorem C60_pool env pool slots fb prov now txs pruned p i :
  let k := run_task env pool slots fb prov now txs in
  In i (pool_after pruned txs k p) <->
  (In i p /\ ~ In i (map x_id txs)) \/
  exists r, In r (k_res k) /\ x_id (t_tx r) = i /\ t_fate r = FBack true /\ pruned <= t_back r.
Proof.
  cbn zeta. set (k := run_task _ _ _ _ _ _ _). unfold pool_after. rewrite in_app_iff, in_prune, in_app_iff, !in_map_iff. split.
  - intros [[[H|((t & i') & E & H)] N]|((t & i') & E & H)]; auto.
    + exfalso. cbn in E. subst i'. apply filter_In in H as [H _]. apply in_backs in H as (r & H & _ & _ & <-). apply N.
      apply in_map_iff. apply (back_ids env pool slots fb prov now txs r H).
    + right. cbn in E. subst i'. apply filter_In in H as [H L]. apply in_backs in H as (r & H & F & T & I). exists r. cbn in L.
      split; auto. split; auto. split; auto. apply negb_true_iff, N.ltb_ge in L. lia.
  - intros [[H N]|(r & H & I & F & L)].
    + left. split; auto.
    + right. exists (t_back r, i). split; auto. apply filter_In. split; [apply in_backs; exists r; auto|]. cbn. apply negb_true_iff, N.ltb_ge. exact L.
Qed.
(** In particular nothing put back is lost to a prune within the first second, and a transaction is put back exactly when it got no
    verdict and the pool takes it. *)
Theorem C60_pool_grace env pool slots fb prov now txs pruned p j r :
  let k := run_task env pool slots fb prov now txs in
  pruned <= now + 1000 -> nth_error (k_res k) j = Some r -> is_back r = true ->
  (exists q, pool = Some q /\ x_sender (t_tx r) <> None /\ q j = true) ->
  In (x_id (t_tx r)) (pool_after pruned txs k p).
Proof.
  cbn zeta. intros Hp Hr Hb Hq. apply C60_pool. right. exists r.
  destruct (C60_batch env pool slots fb prov now txs) as (_ & _ & B).
  destruct (B j r Hr) as (acc & (ord & _ & _ & _ & _ & F) & Ha). apply nth_error_In in Hr. split; auto. split; auto.
  unfold is_back in Hb. unfold fate_ok in F. destruct (t_fate r) as [| |b]; try discriminate Hb. destruct F as (_ & _ & -> & T & _).
  split; [apply Ha in Hq as ->; reflexivity|]. lia.
Qed.

(** ---------- the builder's backoff ---------- *)
(** refused at [t], then at each of [ts], each time within thirty seconds of the end of the hold before it *)
Fixpoint refused_at (period : N) (ts : list N) (b : option backoff) : option backoff :=
  match ts with [] => b | t :: rest => refused_at period rest (after_build period t BRefused b) end.
Fixpoint no_gap (period : N) (ts : list N) (b : option backoff) : Prop :=
  match ts with
  | [] => True
  | t :: rest => (forall o, b = Some o -> t - bo_until o <= 30000) /\ no_gap period rest (after_build period t BRefused b)
  end.
Theorem C60_backoff period :
  (forall ts t, no_gap period (ts ++ [t]) None ->
     exists o, refused_at period (ts ++ [t]) None = Some o /\
       bo_delay o = (match ts with [] => period | _ => N.min (period * 2 ^ N.of_nat (length ts)) 30000 end) /\
       bo_until o = t + bo_delay o) /\
  (forall now b, backoff_holds now b = true <-> exists o, b = Some o /\ now < bo_until o) /\
  (forall now n b, after_build period now (BMined (S n)) b = None) /\
  (forall now b, after_build period now (BMined 0) b = b /\ after_build period now BFailed b = b) /\
  (forall now o, 30000 < now - bo_until o -> after_build period now BRefused (Some o) = Some (mkBO (now + period) period 1)).
Proof.
  split; [|split; [|split; [|split]]].
  - intros ts t.
    assert (Snoc : forall l x b, refused_at period (l ++ [x]) b = after_build period x BRefused (refused_at period l b)).
    { clear. induction l as [|y l IH]; intros x b; [reflexivity|]. apply (IH x (after_build period y BRefused b)). }
    assert (Gap : forall l x b, no_gap period (l ++ [x]) b -> no_gap period l b /\ forall o, refused_at period l b = Some o -> x - bo_until o <= 30000).
    { clear. induction l as [|y l IH]; intros x b; cbn; [intros [A _]; split; [exact I|exact A]|]. intros [A B]. apply IH in B as [B C]. auto. }
    revert t. induction ts as [|t0 ts IH] using rev_ind; intros t G.
    + cbn. eexists. split; [reflexivity|]. cbn. auto.
    + rewrite Snoc. apply Gap in G as [G1 G2]. destruct (IH t0 G1) as (o & E & D & U). rewrite E in *.
      specialize (G2 o eq_refl). cbn [after_build note_refusal]. unfold REFUSAL_CAP.
      replace (t - bo_until o <=? 30000) with true by lia. eexists. split; [reflexivity|]. cbn [bo_delay bo_until]. split; auto.
      rewrite D, app_length. destruct ts as [|y ts].
      * cbn [app length Nat.add]. change (2 ^ N.of_nat 1) with 2. reflexivity.
      * cbn [app length]. replace (N.of_nat (S (length ts) + 1)) with (N.of_nat (S (length ts)) + 1) by lia. rewrite N.pow_add_r, N.pow_1_r.
        generalize (2 ^ N.of_nat (S (length ts))). intros q. lia.
  - intros now b. unfold backoff_holds. destruct b as [o|]; [|split; [discriminate|intros (o & E & _); discriminate E]].
    rewrite N.ltb_lt. split; [intros H; exists o; auto|]. intros (o' & E & H). injection E as <-. exact H.
  - auto.
  - auto.
  - intros now o H. cbn. unfold REFUSAL_CAP. replace (now - bo_until o <=? 30000) with false by lia. reflexivity.
Qed.

(** While it stays advertised, an endpoint that failed is not used for thirty seconds. *)
Theorem C60_cooldown private_ok host_of parses rot pre u t post now txs slots rpcs ad s' :
  (forall u g, host_of u = Some g -> host_wf g) ->
  Forall (keeps_down u t) post -> now < t + 30000 ->
  forward_txns private_ok host_of parses now txs slots rpcs (snd (frun private_ok host_of parses rot (pre ++ FDemote u t :: post))) = (Some ad, s') ->
  forall k, bm_lookup k (a_prov ad) <> Some u.
Proof.
  intros W F L E k X. destruct (C60_admission _ _ _ _ _ _ _ _ _ _ _ W E) as [_ A].
  destruct (A ad eq_refl) as (_ & _ & _ & _ & _ & B & _). destruct (B k u X) as [_ (_ & _ & U)].
  assert (D : down_since (pre ++ FDemote u t :: post) u t) by (exists pre, post; auto). apply U in D. lia.
Qed.

(** Not so if its validator withdraws the advertisement for one batch: then it is used again at once. *)
Definition hosts0 (u : N) : option fhost := Some (H4 8 8 8 u).
Definition toggled : list fev :=
  [FForward 0 [mkTx 1 (Some 0)] [1; 2] [(1, 10); (2, 20)]; FDemote 10 100; FForward 200 [mkTx 2 (Some 0)] [1; 2] [(2, 20)]].
Theorem C60_cooldown_refuted :
  exists ad s', forward_txns false hosts0 (fun _ => true) 300 [mkTx 3 (Some 0)] [1; 2] [(1, 10); (2, 20)] (snd (frun false hosts0 (fun _ => true) 0 toggled)) = (Some ad, s') /\
    bm_lookup 1 (a_prov ad) = Some 10 /\ ~ In (FLift 10) toggled /\ 300 < 100 + 30000.
Proof.
  eexists. eexists. split; [vm_compute; reflexivity|]. split; [reflexivity|]. split; [|lia].
  cbn. intros [X|[X|[X|[]]]]; discriminate X.
Qed.

(** A transaction put back before a prune that comes late is in no pool although it was delivered to nobody. *)
Theorem C60_pool_refuted :
  exists env pool slots fb prov txs pruned r,
    let k := run_task env pool slots fb prov 0 txs in
    k_res k = [r] /\ t_fate r = FBack true /\ t_dials r <> [] /\ pool_after pruned txs k [] = [].
Proof.
  exists (fun _ _ => (RNoVerdict, 1)), (Some (fun _ => true)), [1], [1], [(1, 10)], [mkTx 7 (Some 0)], 2000. eexists. cbn zeta.
  split; [vm_compute; reflexivity|]. split; [reflexivity|]. split; [discriminate|vm_compute; reflexivity].
Qed.
(** Nor does the task's abort at the end of an epoch put anything back it has not come to. *)
Theorem C60_abort_refuted :
  exists env pool slots fb prov txs at_,
    let k := run_task env pool slots fb prov 0 txs in
    y_requeued (k_tally k) = 2%nat /\ pool_after 10 txs k [] = [7; 8] /\ pool_after_abort at_ 10 txs k [] = [7].
Proof.
  exists (fun j _ => (RErrorResp (-32003) "full"%string, if Nat.eqb j 0 then 1 else 4000)), (Some (fun _ => true)), [1], [1], [(1, 10)],
    [mkTx 7 (Some 0); mkTx 8 (Some 0)], 3000. cbn zeta. vm_compute. auto.
Qed.

(** ---------- examples ---------- *)
(** a lying owner (1) rejects, validator 2 is full, 3 accepts; the second transaction's owner 2 does not answer, 1 and 3 reject;
    the third reaches nobody *)
Definition env0 (j : nat) (k : N) : reply * N :=
  match j with
  | 0%nat => if k =? 1 then (RErrorResp (-32000) "nonce too low"%string, 20) else if k =? 2 then (RErrorResp (-32003) "txpool is full"%string, 30) else (ROk, 40)
  | 1%nat => if k =? 2 then (ROk, 9000) else (RErrorResp (-32000) "Insufficient funds"%string, 10)
  | _ => (RErrorResp (-32000) "Transaction underpriced"%string, 10)
  end.
Definition run0 : task :=
  run_task env0 (Some (fun _ => true)) [1; 2; 3] [3; 1; 2] [(1, 10); (2, 20); (3, 30)] 1000 [mkTx 5 (Some 3); mkTx 6 (Some 4); mkTx 7 (Some 5)].
Example C60_ex_batch :
  map t_fate (k_res run0) = [FDelivered; FRejected "Insufficient funds"; FBack true] /\
  map (fun r => map d_key (t_dials r)) (k_res run0) = [[1; 3]; [2; 3; 1]; [3; 1]] /\
  k_tally run0 = mkTally 1 1 1 1 1 /\ k_demo run0 = [(20, 6060)] /\
  earlier run0 2 20 /\ pool_after 1500 [mkTx 5 (Some 3); mkTx 6 (Some 4); mkTx 7 (Some 5)] run0 [5; 6; 7; 9] = [9; 7].
Proof.
  split; [vm_compute; reflexivity|]. split; [vm_compute; reflexivity|]. split; [vm_compute; reflexivity|]. split; [vm_compute; reflexivity|].
  split; [|vm_compute; reflexivity]. unfold earlier, unreach.
  exists (mkDial 2 20 1060 Unreachable). vm_compute. auto.
Qed.
(** one validator's word is enough only when time runs out: 1 rejects, 2 to 4 take five seconds each, 5 would have accepted *)
Definition env1 (j : nat) (k : N) : reply * N :=
  if k =? 1 then (RErrorResp (-32000) "no"%string, 0) else if k =? 5 then (ROk, 1) else (RErrorResp (-32003) "full"%string, 5000).
Example C60_ex_cut :
  let k := run_task env1 None [1] [1; 2; 3; 4; 5] [(1, 10); (2, 20); (3, 30); (4, 40); (5, 50)] 0 [mkTx 5 (Some 0)] in
  map t_fate (k_res k) = [FRejected "no"] /\ map t_cut (k_res k) = [Some 5] /\ map t_end (k_res k) = [15000].
Proof. vm_compute. auto. Qed.
(** the deadline: nine transactions at fifteen seconds each *)
Definition run2 : task :=
  run_task (fun _ _ => (RErrorResp (-32603) "x"%string, 5000)) None [1] [1; 2; 3; 4] [(1, 10); (2, 20); (3, 30); (4, 40)] 0 (map (fun i => mkTx i (Some 0)) [1; 2; 3; 4; 5; 6; 7; 8; 9]).
Example C60_ex_deadline : k_tally run2 = mkTally 0 0 8 9 0 /\ abandoned (map t_tx (k_res run2)) (k_tally run2) = 1%nat /\ k_t run2 = 120000.
Proof. vm_compute. auto. Qed.
Example C60_ex_hosts :
  check_host (Some (H4 172 32 0 1)) = None /\ check_host (Some (H4 172 31 255 255)) = Some PrivateUse /\
  check_host (Some (H6 [0; 0; 0; 0; 0; 65535; 32512; 1])) = Some Loopback /\ check_host (Some (H6 [8194; 2560; 1; 0; 0; 0; 0; 1])) = Some PrivateUse /\
  check_host (Some (H6 [9735; 63744; 0; 0; 0; 0; 0; 1])) = None /\ check_host (Some (HName "rpc.LocalHost.."%string)) = Some Loopback /\
  check_host (Some (HName "notlocalhost"%string)) = None /\ public_host (Some (H4 8 8 8 8)) /\ ~ public_host (Some (HName "a.local."%string)).
Proof.
  assert (P : public_host (Some (H4 8 8 8 8))). { apply C60_hosts; [intros g E; injection E as <-; cbn; lia|reflexivity]. }
  assert (Q : ~ public_host (Some (HName "a.local."%string))). { rewrite <- C60_hosts; [vm_compute; discriminate|intros g E; injection E as <-; exact I]. }
  repeat (split; [vm_compute; reflexivity|]). auto.
Qed.
Example C60_ex_node :
  exists ad s', forward_txns false hosts0 (fun u => u <? 100) 31000 [mkTx 3 (Some 0)] [1; 2; 3] [(1, 10); (2, 20); (3, 300)]
      (snd (frun false hosts0 (fun u => u <? 100) 7 [FForward 0 [mkTx 1 (Some 0)] [1; 2] [(1, 10); (2, 20)]; FDemote 10 500; FDemote 20 2000; FDone])) = (Some ad, s') /\
    a_prov ad = [(1, 10)] /\ n_live s' = 1%nat.
Proof. eexists. eexists. split; [vm_compute; reflexivity|]. auto. Qed.
Example C60_ex_rotation : map (rotated [4; 5; 6]) [7; 8; 9] = [[5; 6; 4]; [6; 4; 5]; [4; 5; 6]].
Proof. reflexivity. Qed.
Example C60_ex_backoff :
  no_gap 1000 [0; 1500; 4000; 9000] None /\ option_map bo_delay (refused_at 1000 [0; 1500; 4000; 9000] None) = Some 8000 /\
  backoff_holds 16999 (refused_at 1000 [0; 1500; 4000; 9000] None) = true.
Proof.
  split; [|vm_compute; auto]. cbn. repeat (split; [intros o X; try discriminate X; injection X as <-; cbn; lia|]). exact I.
Qed.
