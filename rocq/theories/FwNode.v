(** The forwarder over time (C60). *)
From Verif Require Import Util FwModel FwSpec FwNames.
From Coq Require Import String Ascii.
Import List ListNotations.
Local Open Scope N_scope.

(** the call in a reachable state *)
Definition considered (txs : list ftx) (slots : list N) (rpcs : list (N * N)) : Prop := txs <> [] /\ slots <> [] /\ rpcs <> [].
Lemma considered_dec txs slots rpcs :
  (0 <? N.of_nat (@length ftx txs)) && ((0 <? N.of_nat (@length N slots)) && (0 <? N.of_nat (@length (N * N) rpcs))) = true <-> considered txs slots rpcs.
Proof.
  unfold considered. destruct txs, slots, rpcs; cbn [length]; rewrite ?andb_true_iff, ?N.ltb_lt; split; intros H; try (repeat split; (discriminate || lia)); exfalso;
    destruct H as (A & B & C); ((contradiction A; reflexivity) || (contradiction B; reflexivity) || (contradiction C; reflexivity) || lia).
Qed.

Section Node.
Variable private_ok : bool.
Variable host_of : N -> option fhost.
Variable parses : N -> bool.
Hypothesis hosts_wf : forall u g, host_of u = Some g -> host_wf g.
Let allowed (u : N) : bool := private_ok || match check_host (host_of u) with None => true | Some _ => false end.
Let okb (u : N) : bool := allowed u && parses u.
Let Inv (c : fcache) : Prop := forall u, In u (fc_prov c) -> okb u = true.

Lemma allowed_spec u : allowed u = true <-> private_ok = true \/ public_host (host_of u).
Proof using hosts_wf.
  subst allowed. cbn beta. rewrite orb_true_iff. rewrite <- (check_host_spec (host_of u) (hosts_wf u)).
  destruct (check_host (host_of u)); intuition congruence.
Qed.

Lemma resolve_one m c k u : Inv c ->
  let r := resolve private_ok host_of parses (m, c) (k, u) in
  fst r = (if okb u && negb (memN u (map fst (fc_un c))) then bm_insert k u m else m) /\ fc_un (snd r) = fc_un c /\ Inv (snd r).
Proof using.
  intros I. cbn zeta. unfold resolve.
  destruct (memN u (map fst (fc_un c))) eqn:D; [rewrite andb_false_r; auto|]. rewrite andb_true_r.
  destruct (memN u (fc_prov c)) eqn:M.
  { apply memN_In in M. rewrite (I u M). auto. }
  subst okb allowed. cbn beta.
  destruct private_ok; cbn [orb andb].
  - destruct (parses u) eqn:P; [|auto]. cbn. split; auto. split; auto. intros v [<-|H]; [exact P|apply I; auto].
  - destruct (check_host (host_of u)) eqn:Ch; cbn [andb].
    + cbn. split; auto.
    + destruct (parses u) eqn:P; [|auto]. cbn. split; auto. split; auto. intros v [<-|H]; [cbn; rewrite Ch; exact P|apply I; auto].
Qed.
Lemma resolve_all rpcs : forall m c, Inv c ->
  let r := fold_left (resolve private_ok host_of parses) rpcs (m, c) in
  fst r = fold_left (fun m kv => bm_insert (fst kv) (snd kv) m) (filter (fun e => okb (snd e) && negb (memN (snd e) (map fst (fc_un c)))) rpcs) m /\
  fc_un (snd r) = fc_un c /\ Inv (snd r).
Proof using.
  induction rpcs as [|[k u] rpcs IH]; intros m c I; cbn [fold_left filter]; [auto|].
  destruct (resolve_one m c k u I) as (A & B & C).
  destruct (resolve private_ok host_of parses (m, c) (k, u)) as [m1 c1] eqn:E. cbn [fst snd] in A, B, C.
  destruct (IH m1 c1 C) as (A1 & B1 & C1). cbn zeta. rewrite A1, B1, B. split; auto.
  cbn [snd fst]. rewrite A. destruct (okb u && negb (memN u (map fst (fc_un c)))); reflexivity.
Qed.

Lemma of_list_lookup (l : list (N * N)) k u : bm_lookup k (bm_of_list l) = Some u -> In (k, u) l.
Proof using.
  unfold bm_of_list. induction l as [|[a b] l IH] using rev_ind; [discriminate|].
  rewrite fold_left_app. cbn [fold_left fst snd]. rewrite bm_lookup_insert by (apply bm_of_list_sorted).
  destruct (N.eqb_spec k a) as [->|]; intros H; apply in_or_app; [right; injection H as <-; left; reflexivity|left; auto].
Qed.
Lemma of_list_lookup_iff (l : list (N * N)) k u : NoDup (map fst l) -> (bm_lookup k (bm_of_list l) = Some u <-> In (k, u) l).
Proof using.
  intros ND. split; [apply of_list_lookup|]. intros H.
  destruct (bm_lookup k (bm_of_list l)) as [v|] eqn:E.
  - apply of_list_lookup in E. f_equal.
    revert ND H E. clear. induction l as [|[a b] l IH]; intros ND H E; [contradiction|]. inversion ND; subst.
    destruct H as [H|H], E as [E|E].
    + congruence.
    + injection H as -> ->. destruct H2. apply (in_map fst _ _ E).
    + injection E as -> ->. destruct H2. apply (in_map fst _ _ H).
    + apply IH; auto.
  - apply bm_lookup_None in E. destruct E. apply bm_of_list_keys. apply (in_map fst _ _ H).
Qed.

Lemma frun_snoc rot evs e : frun private_ok host_of parses rot (evs ++ [e]) = fstep private_ok host_of parses (frun private_ok host_of parses rot evs) e.
Proof using. unfold frun. rewrite fold_left_app. reflexivity. Qed.

Lemma down_snoc evs e u t : down_since (evs ++ [e]) u t <-> e = FDemote u t \/ (down_since evs u t /\ keeps_down u t e).
Proof using.
  unfold down_since. split.
  - intros (pre & post & E & F). destruct post as [|x post] using rev_ind.
    + apply app_inj_tail in E as [_ ->]. auto.
    + clear IHpost. right. change (pre ++ FDemote u t :: post ++ [x]) with (pre ++ (FDemote u t :: post) ++ [x]) in E. rewrite app_assoc in E.
      apply app_inj_tail in E as [-> ->]. apply Forall_app in F as [F1 F2]. inversion F2; subst. split; auto. exists pre, post. auto.
  - intros [->|[(pre & post & -> & F) K]].
    + exists evs, []. auto.
    + exists pre, (post ++ [e]). rewrite <- app_assoc. split; auto. apply Forall_app. auto.
Qed.

Definition node_inv (evs : list fev) (a : list admitted * fnode) : Prop :=
  Inv (n_cache (snd a)) /\ (forall u t, In (u, t) (fc_un (n_cache (snd a))) <-> down_since evs u t) /\
  (n_live (snd a) <= 64)%nat /\ (length (fst a) <= n_live (snd a) + length (filter is_done evs))%nat.

Lemma cached_spec now rpcs c : Inv c ->
  let r := cached_providers private_ok host_of parses now rpcs c in
  fst r = bm_of_list (filter (fun e => okb (snd e) && negb (memN (snd e) (map fst (filter (fun x => memN (fst x) (map snd rpcs) && (now - snd x <? 30000)) (fc_un c))))) rpcs) /\
  fc_un (snd r) = filter (fun x => memN (fst x) (map snd rpcs) && (now - snd x <? 30000)) (fc_un c) /\ Inv (snd r).
Proof using.
  intros I. unfold cached_providers.
  match goal with |- context [fold_left _ rpcs ([], ?c1)] => set (c0 := c1) end.
  apply (resolve_all rpcs [] c0). intros u H. apply filter_In in H as [H _]. apply I; auto.
Qed.

Lemma usable_iff evs now (rpcs : list (N * N)) c u : Inv c -> (forall u t, In (u, t) (fc_un c) <-> down_since evs u t) -> In u (map snd rpcs) ->
  (okb u && negb (memN u (map fst (filter (fun x => memN (fst x) (map snd rpcs) && (now - snd x <? 30000)) (fc_un c)))) = true <->
   usable private_ok host_of parses evs now u).
Proof using hosts_wf.
  intros I D Hu. unfold usable. subst okb. cbn beta. rewrite !andb_true_iff, negb_true_iff, memN_nIn, allowed_spec.
  assert (X : ~ In u (map fst (filter (fun x => memN (fst x) (map snd rpcs) && (now - snd x <? 30000)) (fc_un c))) <->
              forall t, down_since evs u t -> 30000 <= now - t).
  { rewrite in_map_iff. split.
    - intros H t Ht. apply D in Ht. destruct (N.le_gt_cases 30000 (now - t)) as [|L]; auto. destruct H. exists (u, t). split; auto.
      apply filter_In. split; auto. cbn. rewrite andb_true_iff, memN_In, N.ltb_lt. auto.
    - intros H ([v t] & E & F). cbn in E. subst v. apply filter_In in F as [F1 F2]. cbn in F2. rewrite andb_true_iff, N.ltb_lt in F2.
      apply D in F1. apply H in F1. lia. }
  rewrite X. tauto.
Qed.

Lemma forward_inv evs a now txs slots rpcs r s' : node_inv evs a ->
  forward_txns private_ok host_of parses now txs slots rpcs (snd a) = (r, s') ->
  node_inv (evs ++ [FForward now txs slots rpcs]) (match r with Some ad => fst a ++ [ad] | None => fst a end, s') /\
  (r <> None <-> considered txs slots rpcs /\ (n_live (snd a) < 64)%nat /\ exists k u, In (k, u) rpcs /\ usable private_ok host_of parses evs now u) /\
  (forall ad, r = Some ad ->
     a_now ad = now /\ a_txs ad = txs /\ a_slots ad = slots /\ a_fallbacks ad = rotated (bm_keys (a_prov ad)) (n_rot (snd a)) /\
     n_rot s' = (n_rot (snd a) + 1) mod 18446744073709551616 /\ bm_sorted (a_prov ad) /\
     a_prov ad = bm_of_list (filter (fun e => okb (snd e) && negb (memN (snd e) (map fst (filter (fun x => memN (fst x) (map snd rpcs) && (now - snd x <? 30000)) (fc_un (n_cache (snd a))))))) rpcs)) /\
  (r = None -> n_rot s' = n_rot (snd a) /\ n_live s' = n_live (snd a)) /\ (r <> None -> n_live s' = S (n_live (snd a))).
Proof using hosts_wf.
  intros (I & D & L & C) E. unfold forward_txns in E.
  assert (Fd : filter is_done (evs ++ [FForward now txs slots rpcs]) = filter is_done evs) by (rewrite filter_app; apply app_nil_r).
  destruct ((0 <? N.of_nat (length txs)) && _) eqn:K.
  - apply considered_dec in K. pose proof (cached_spec now rpcs (n_cache (snd a)) I) as (S1 & S2 & S3).
    destruct (cached_providers _ _ _ now rpcs _) as [m c] eqn:Ec. cbn [fst snd] in S1, S2, S3.
    assert (D' : forall u t, In (u, t) (fc_un c) <-> down_since (evs ++ [FForward now txs slots rpcs]) u t).
    { intros u t. rewrite S2, filter_In, andb_true_iff, memN_In, N.ltb_lt, D, down_snoc. cbn [fst snd keeps_down].
      destruct K as (K1 & K2 & K3). split; [intros (A1 & A2 & A3); right; auto|]. intros [A|[A1 A2]]; [discriminate|]. split; auto. }
    assert (Em : m <> [] <-> exists k u, In (k, u) rpcs /\ usable private_ok host_of parses evs now u).
    { split.
      - intros Hm. destruct m as [|[k u] m']; [contradiction Hm; auto|]. exists k, u.
        assert (Hin : In (k, u) (filter (fun e => okb (snd e) && negb (memN (snd e) (map fst (filter (fun x => memN (fst x) (map snd rpcs) && (now - snd x <? 30000)) (fc_un (n_cache (snd a))))))) rpcs)).
        { apply of_list_lookup. rewrite <- S1. cbn. rewrite N.eqb_refl. reflexivity. }
        apply filter_In in Hin as [H1 H2]. split; auto. cbn [snd] in H2.
        apply (usable_iff evs now rpcs (n_cache (snd a))) in H2; auto. apply (in_map snd _ _ H1).
      - intros (k & u & H1 & H2) Hm. assert (Hin : In k (bm_keys m)).
        { rewrite S1. apply bm_of_list_keys. change k with (fst (k, u)). apply in_map. apply filter_In. split; auto. cbn [snd].
          apply (usable_iff evs now rpcs (n_cache (snd a))); auto. apply (in_map snd _ _ H1). }
        rewrite Hm in Hin. destruct Hin. }
    destruct m as [|e m'] eqn:Hm.
    { inversion E; subst r s'. cbn [snd fst n_cache n_live n_rot].
      assert (NE : ~ exists k u, In (k, u) rpcs /\ usable private_ok host_of parses evs now u) by (rewrite <- Em; intros X; apply X; reflexivity).
      split; [split; [auto|split; [auto|split; [auto|rewrite Fd; auto]]]|]. split.
      - split; [intros X; contradiction X; auto|]. intros (_ & _ & X). destruct (NE X).
      - split; [intros ad X; discriminate X|]. split; auto. intros X. contradiction X; auto. }
    destruct (Nat.ltb_spec (n_live (snd a)) MAX_FORWARDS) as [HL|HL]; unfold MAX_FORWARDS in HL; inversion E; subst r s'; cbn [snd fst n_cache n_live n_rot].
    + split.
      { split; [auto|]. split; [auto|]. cbn. rewrite Fd, app_length. cbn [length]. split; lia. }
      split.
      { split; [intros _|discriminate]. split; auto. split; auto. apply Em. discriminate. }
      split.
      { intros ad X. injection X as <-. cbn. split; auto. split; auto. split; auto. split; auto. split; auto. rewrite S1. split; [apply bm_of_list_sorted|reflexivity]. }
      split; [discriminate|auto].
    + split; [split; [auto|split; [auto|split; [auto|rewrite Fd; auto]]]|]. split.
      { split; [intros X; contradiction X; auto|]. intros (_ & X & _). lia. }
      split; [intros ad X; discriminate X|]. split; auto. intros X. contradiction X; auto.
  - inversion E; subst r s'. assert (NK : ~ considered txs slots rpcs) by (rewrite <- considered_dec, K; discriminate).
    split.
    { split; [auto|]. split; [|rewrite Fd; auto]. intros u t. cbn. rewrite D, down_snoc. cbn [keeps_down]. split; [|intros [X|[X _]]; [discriminate|auto]].
      intros X. right. split; auto. intros A1 A2 A3. destruct NK. split; auto. }
    split; [split; [intros X; contradiction X; auto|intros (X & _); contradiction]|].
    split; [intros ad X; discriminate X|]. split; auto. intros X. contradiction X; auto.
Qed.
Lemma frun_inv rot evs : node_inv evs (frun private_ok host_of parses rot evs).
Proof using hosts_wf.
  induction evs as [|e evs IH] using rev_ind.
  - split; [intros u []|]. split; [|cbn; lia]. intros u t. cbn. split; [contradiction|]. intros ([|] & post & E & _); discriminate E.
  - rewrite frun_snoc. destruct e as [now txs slots rpcs|u now|u|].
    + unfold fstep. destruct (frun private_ok host_of parses rot evs) as [l s] eqn:E.
      destruct (forward_txns private_ok host_of parses now txs slots rpcs s) as [r s'] eqn:F.
      apply (forward_inv evs (l, s) now txs slots rpcs r s' IH F).
    + destruct (frun private_ok host_of parses rot evs) as [l s]. destruct IH as (I & D & L & C). cbn [fstep fst snd] in *.
      split; [exact I|]. cbn [n_cache n_live fc_un snd fst]. split; [|split; [auto|rewrite filter_app; cbn; rewrite app_nil_r; auto]].
      intros v t. rewrite down_snoc. unfold un_insert. cbn [In]. rewrite filter_In, D. cbn [fst keeps_down].
      rewrite negb_true_iff, N.eqb_neq. split.
      * intros [X|[X Y]]; [left; congruence|right; auto].
      * intros [X|[X Y]]; [left; congruence|right; auto].
    + destruct (frun private_ok host_of parses rot evs) as [l s]. destruct IH as (I & D & L & C). cbn [fstep fst snd] in *.
      split; [exact I|]. cbn [n_cache n_live fc_un snd fst]. split; [|split; [auto|rewrite filter_app; cbn; rewrite app_nil_r; auto]].
      intros v t. rewrite down_snoc, filter_In, D. cbn [fst keeps_down]. rewrite negb_true_iff, N.eqb_neq. split.
      * intros [X Y]. right. auto.
      * intros [X|[X Y]]; [discriminate|auto].
    + destruct (frun private_ok host_of parses rot evs) as [l s]. destruct IH as (I & D & L & C). cbn [fstep fst snd] in *.
      split; [exact I|]. cbn [n_cache n_live fc_un snd fst]. split; [|split; [lia|rewrite filter_app, app_length; cbn; lia]].
      intros v t. rewrite down_snoc, D. cbn. split; auto. intros [X|[X _]]; [discriminate|auto].
Qed.
Lemma rot_count rot evs : rot < 18446744073709551616 ->
  n_rot (snd (frun private_ok host_of parses rot evs)) =
  (rot + N.of_nat (length (fst (frun private_ok host_of parses rot evs)))) mod 18446744073709551616.
Proof using hosts_wf.
  intros Hr. induction evs as [|e evs IH] using rev_ind.
  - cbn [frun fold_left snd fst n_rot length]. rewrite N.add_0_r, N.mod_small; auto.
  - rewrite frun_snoc. pose proof (frun_inv rot evs) as NI. destruct (frun private_ok host_of parses rot evs) as [l s] eqn:E.
    destruct e as [now txs slots rpcs|u now|u|]; cbn [fstep]; try exact IH.
    destruct (forward_txns private_ok host_of parses now txs slots rpcs s) as [r s'] eqn:F.
    destruct (forward_inv evs (l, s) now txs slots rpcs r s' NI F) as (_ & _ & A & B & _). cbn [snd fst] in *.
    destruct r as [ad|].
    + destruct (A ad eq_refl) as (_ & _ & _ & _ & A5 & _). rewrite A5, IH, app_length. cbn [length].
      rewrite N.add_mod_idemp_l by discriminate. f_equal. lia.
    + destruct (B eq_refl) as [B1 _]. rewrite B1. exact IH.
Qed.
End Node.

(** rotation *)
Lemma rotated_perm l c : Permutation (rotated l c) l.
Proof. unfold rotated. rewrite Permutation_app_comm, firstn_skipn. reflexivity. Qed.
Lemma rotated_split l c : l <> [] -> exists l1 l2, l = l1 ++ l2 /\ rotated l c = l2 ++ l1 /\ N.of_nat (length l1) = c mod N.of_nat (length l).
Proof.
  intros H. unfold rotated, rotation_start. destruct (Nat.eqb_spec (length l) 0) as [E|E]; [destruct l; [contradiction|discriminate]|].
  exists (firstn (N.to_nat (c mod N.of_nat (length l))) l), (skipn (N.to_nat (c mod N.of_nat (length l))) l).
  rewrite firstn_skipn. split; auto. split; auto. rewrite firstn_length.
  pose proof (N.mod_lt c (N.of_nat (length l))). lia.
Qed.
Lemma rotated_first l c i : l <> [] -> (i < length l)%nat -> c mod N.of_nat (length l) = N.of_nat i -> nth_error l i = hd_error (rotated l c).
Proof.
  intros H Hi Hc. destruct (rotated_split l c H) as (l1 & l2 & E & R & L). rewrite R.
  assert (Li : length l1 = i) by lia. subst l. rewrite nth_error_app2 by lia. rewrite Li, Nat.sub_diag.
  destruct l2; [rewrite app_length in Hi; cbn in Hi; lia|reflexivity].
Qed.
