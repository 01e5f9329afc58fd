(* C55: connection limits, pruning, discovery and dialing. *)
From Coq Require Import Permutation Sorting.Sorted.
From Verif Require Import Util AMap PeersModel PeersSpec PeersProofs PeersProofs2 PeersProofs3 PeersProofs4 PeersProofs5 PeersProofs6 CacheModel CacheSpec CacheProofs MgrModel MgrSpec MgrProofs MgrProofs2 MgrProofs3 MgrProofs4 MgrProofs5 MgrProofs6 MgrProofs7 MgrProofs8 MgrProofs9 MgrProofs10 Props_Mgr.
Local Open Scope nat_scope.
Local Notation neq := N.eqb_eq.

(* p has an open connection according to the peer table *)
Definition is_open (m : mgr) (p : pid) : Prop := exists r i o, get_peer (m_store m) p = Some r /\ p_status r = Connected i o.
(* open connections, and those open or being dialed, as lists without repetition *)
Definition lists_exactly (l : list pid) (P : pid -> Prop) : Prop := NoDup l /\ forall p, In p l <-> P p.
Definition is_open_or_dialed (m : mgr) (p : pid) : Prop :=
  exists r, get_peer (m_store m) p = Some r /\ ((exists i o, p_status r = Connected i o) \/ exists t, p_status r = Dialing t).
(* protected from pruning and limits: a member of one of the three committees, or added by the operator *)
Definition protected (m : mgr) (p : pid) : Prop :=
  (exists k r, rec_of (Confirmed k) (m_store m) = Some r /\ p_net r = Some p /\
     (In k (previous (m_store m)) \/ In k (current (m_store m)) \/ In k (next (m_store m)))) \/
  (exists r, get_peer (m_store m) p = Some r /\ p_oper r = true).
(* the order in which connections are given up: lower score first, not routable before routable *)
Definition no_better (rt : pid -> bool) (m : mgr) (p q : pid) : Prop :=
  exists a b, get_peer (m_store m) p = Some a /\ get_peer (m_store m) q = Some b /\
    ((s_agg (p_score a) < s_agg (p_score b))%Z \/ (s_agg (p_score a) = s_agg (p_score b) /\ (rt p = true -> rt q = true))).

Lemma open_conn m p : is_open m p <-> exists r, get_peer (m_store m) p = Some r /\ is_conn (p_status r) = true.
Proof.
  split; [intros (r & i & o & A & B); exists r; rewrite B; auto|]. intros (r & A & B). exists r. destruct (p_status r) as [i o| | | | |]; try discriminate B. eauto.
Qed.
Lemma open_dial m p : is_open_or_dialed m p <-> exists r, get_peer (m_store m) p = Some r /\ is_conn_or_dial (p_status r) = true.
Proof.
  split; [intros (r & A & [(i & o & B)|(t & B)]); exists r; rewrite B; auto|]. intros (r & A & B). exists r. split; auto.
  destruct (p_status r) as [i o| | | |t|]; try discriminate B; eauto.
Qed.
Lemma slots_in s k : in_slots s k = true <-> In k (previous s) \/ In k (current s) \/ In k (next s).
Proof. unfold in_slots. rewrite !orb_true_iff, !memN_In. tauto. Qed.
Lemma protected_important m p : Inv false false (m_store m) -> protected m p <-> important m p = true.
Proof.
  intros HI. unfold protected, important. rewrite orb_true_iff. unfold is_validator, allowlisted. split.
  - intros [(k & r & A & B & C)|(r & A & B)]; [left|right; rewrite A; auto].
    assert (E : idx_of p (m_store m) = Some k) by (apply (wf_idx _ _ (proj1 HI)); exists r; auto). rewrite E. apply slots_in; auto.
  - intros [H|H].
    + left. destruct (idx_of p (m_store m)) as [k|] eqn:E; [|discriminate H]. apply (wf_idx _ _ (proj1 HI)) in E. destruct E as (r & A & B). exists k, r. rewrite slots_in in H. auto.
    + right. destruct (get_peer (m_store m) p) as [r|]; [exists r; auto|discriminate H].
Qed.
Lemma open_list m l : Inv false false (m_store m) -> lists_exactly l (is_open m) -> Permutation l (connected_pids (m_store m)).
Proof.
  intros HI [A B]. apply NoDup_Permutation; auto; [apply where_nodup; auto|]. intros p. rewrite B, open_conn. symmetry. apply where_in; auto.
Qed.
Lemma dial_list m l : Inv false false (m_store m) -> lists_exactly l (is_open_or_dialed m) -> Permutation l (conn_or_dial_pids (m_store m)).
Proof.
  intros HI [A B]. apply NoDup_Permutation; auto; [apply where_nodup; auto|]. intros p. rewrite B, open_dial. symmetry. apply where_in; auto.
Qed.

(* ---- pruning ---- *)
(* Of n open connections, u of them not protected, min (n - target) u are given up: never a protected
   one, the lowest by score and routability first; each victim is sent a goodbye with peers to try, is
   being disconnected and temporarily banned; no other record changes. *)
Theorem C55_prune : forall local dur n g l now rt is opens unprotected,
  forward (l ++ [MHeartbeat now rt is [] []]) ->
  let m := start local dur n g l in
  let m' := prune_connected g now rt is m in
  lists_exactly opens (is_open m) -> lists_exactly unprotected (fun p => is_open m p /\ ~ protected m p) ->
  exists victims,
    lists_exactly victims (fun p => is_open m p /\ ~ is_open m' p) /\
    length victims = Nat.min (length opens - g_target g) (length unprotected) /\
    (forall p, In p victims -> ~ protected m p /\
       (exists r, get_peer (m_store m) p = Some r /\ get_peer (m_store m') p = Some (with_status (Disconnecting false) r)) /\
       (exists x, In (PDisconnectX p x) (m_events m')) /\
       (cache_contains p (m_temp m') = true \/ In (PUnbanned p) (m_events m'))) /\
    (forall p q, In p victims -> is_open m' q -> ~ protected m q -> no_better rt m p q) /\
    (forall q, ~ In q victims -> get_peer (m_store m') q = get_peer (m_store m) q).
Proof.
  intros local dur n g l now rt is opens unprotected Hf m m' Ho Hu.
  assert (HI : Inv false false (m_store m)) by apply mgr_inv.
  destruct (prune_spec g now rt is m HI) as (PA & PB & PC). fold m' in PA, PB, PC.
  exists (map fst (victims g rt is m)).
  assert (Hopen : forall p, In p (map fst (victims g rt is m)) <-> is_open m p /\ ~ is_open m' p).
  { intros p. split.
    - intros H. apply in_map_iff in H. destruct H as ([q r] & E & H). cbn in E. subst q. destruct (PA _ _ H) as (A & B & C). split; [apply open_conn; eauto|].
      intros (x & i & o & X & Y). rewrite C in X. injection X as <-. discriminate Y.
    - intros [A B]. destruct (in_dec N.eq_dec p (map fst (victims g rt is m))) as [H|H]; auto. exfalso. apply B. apply open_conn in A. apply open_conn. rewrite PB by exact H. exact A. }
  split; [split; [apply victims_nodup; exact HI|exact Hopen]|]. split; [|split; [|split]].
  - rewrite map_length, prune_len by exact HI. rewrite <- (Permutation_length (open_list m opens HI Ho)). f_equal.
    apply Permutation_length. apply NoDup_Permutation; [apply NoDup_filter, where_nodup; exact HI|apply Hu|].
    intros p. rewrite filter_In, negb_true_iff. rewrite (proj2 Hu p). unfold connected_pids. rewrite where_in by exact HI. rewrite <- open_conn, protected_important by exact HI.
    rewrite not_true_iff_false. reflexivity.
  - intros p Hp. pose proof Hp as Hp0. apply in_map_iff in Hp. destruct Hp as ([q r] & E & H). cbn in E. subst q.
    destruct (PA _ _ H) as (A & B & C). destruct (victims_sub _ _ _ _ _ H) as [V1 V2].
    split; [rewrite protected_important by exact HI; rewrite (prunable_important _ p r A) in V2; unfold important; intros X; rewrite X in V2; discriminate V2|].
    split; [exists r; auto|].
    assert (Em : m' = m \/ m' = prune_loop g now (length (by_score rt is (m_store m)) - g_target g) (map fst (filter (prunable (m_store m)) (by_score rt is (m_store m)))) m).
    { unfold m', prune_connected. cbn zeta. destruct (_ =? 0); auto. }
    assert (Hv : In p (firstn (length (by_score rt is (m_store m)) - g_target g) (map fst (filter (prunable (m_store m)) (by_score rt is (m_store m)))))).
    { unfold victims in Hp0. rewrite firstn_map. exact Hp0. }
    assert (Ez : length (by_score rt is (m_store m)) - g_target g <> 0) by (intros Z; rewrite Z in Hv; destruct Hv).
    assert (Em' : m' = prune_loop g now (length (by_score rt is (m_store m)) - g_target g) (map fst (filter (prunable (m_store m)) (by_score rt is (m_store m)))) m).
    { unfold m', prune_connected. cbn zeta. apply Nat.eqb_neq in Ez. rewrite Ez. reflexivity. }
    split; [rewrite Em'; destruct (told_loop g now _ (length (by_score rt is (m_store m)) - g_target g) m p (or_intror Hv)) as [x Hx]; exists x; exact Hx|].
    assert (Hf1 : forward l). { revert Hf. unfold forward. clear. generalize 0%N. induction l as [|x l IH]; intros t; cbn; auto. destruct (at_time x); [intros [A B]; split; eauto|eauto]. }
    destruct (start_any local dur n g l Hf1) as (t & J & Hg). specialize (Hg _ Hf). cbn in Hg. destruct Hg as [Hg _].
    fold m in J. apply (u_in dur (Nat.max n 1) p now). rewrite Em'. apply ux_loop; auto; [eapply JX_mono; eauto| |].
    + apply nodup_map_filter. eapply Permutation_NoDup; [apply Permutation_map, by_score_perm|apply conn_nodup; exact HI].
    + intros x Hx. apply in_map_iff in Hx. destruct Hx as ([y z] & E & Hy). cbn in E. subst y. apply filter_In in Hy. exists z. apply (conn_in _ x z HI).
      eapply Permutation_in; [symmetry; apply by_score_perm|]. apply Hy.
  - intros p q Hp Hq Hn. apply in_map_iff in Hp. destruct Hp as ([p' r] & E & H). cbn in E. subst p'.
    apply open_conn in Hq. destruct Hq as (b & Hb & Hcb). assert (Hq : ~ In q (map fst (victims g rt is m))).
    { intros X. apply Hopen in X. apply (proj2 X). apply open_conn. exists b; auto. }
    rewrite PB in Hb by exact Hq. destruct (PA _ _ H) as (A & _). exists r, b. split; auto. split; auto.
    assert (K : key_le (rank rt (p, r)) (rank rt (q, b)) = true).
    { apply (prune_order g rt is m); auto.
      - apply (conn_in _ q b HI). auto.
      - rewrite (prunable_important _ q b Hb). rewrite protected_important in Hn by exact HI. unfold important in Hn. apply not_true_iff_false in Hn. rewrite Hn. reflexivity.
      - intros X. apply Hq. apply in_map_iff. exists (q, b). auto. }
    unfold key_le, rank in K. cbn [fst snd] in K. apply orb_true_iff in K. destruct K as [K|K]; [left; apply Z.ltb_lt; exact K|right].
    apply andb_true_iff in K. destruct K as [K1 K2]. apply Z.eqb_eq in K1. split; auto. intros X. rewrite X in K2. cbn in K2. exact K2.
  - exact PB.
Qed.
(* At the level of a whole heartbeat: no protected connection is lost, none is gained, and what remains
   is at most the target or the protected ones, whichever is more. *)
Theorem C55_heartbeat_connections : forall local dur n g l now rt is0 is1 is2 opens,
  let m := start local dur n g l in
  let m' := mstep g m (MHeartbeat now rt is0 is1 is2) in
  (forall p, is_open m' p -> is_open m p) /\
  (forall p, is_open m p -> protected m p -> is_open m' p) /\
  (lists_exactly opens (is_open m') -> forall prot, lists_exactly prot (fun p => is_open m p /\ protected m p) ->
     length opens <= Nat.max (g_target g) (length prot)).
Proof.
  intros local dur n g l now rt is0 is1 is2 opens m m'.
  assert (HI : Inv false false (m_store m)) by apply mgr_inv.
  set (x := maintained g now m). assert (Es : m_store x = heartbeat (g_store g) now (m_store m)) by apply maintained_store.
  assert (HX : Inv false false (m_store x)) by (rewrite Es; apply heartbeat_inv; exact HI).
  assert (Em : m_store m' = m_store (prune_connected g now rt is0 x)) by (unfold m'; cbn [mstep]; apply hb_store).
  destruct (prune_spec g now rt is0 x HX) as (PA & PB & PC). rewrite <- Em in PA, PB, PC.
  assert (C0 : forall p, is_open x p <-> is_open m p).
  { intros p. rewrite !open_conn. pose proof (hb_conn (g_store g) now (m_store m) p HI) as E. rewrite <- Es in E. unfold conn in E.
    split; intros (r & A & B); rewrite A in E; rewrite B in E.
    - destruct (get_peer (m_store m) p) as [y|]; [exists y; auto|discriminate E].
    - destruct (get_peer (m_store x) p) as [y|]; [exists y; auto|discriminate E]. }
  assert (I0 : forall p, is_open m p -> important x p = important m p).
  { intros p Hp. unfold important. rewrite Es. apply hb_important; auto. apply open_conn in Hp. destruct Hp as (r & A & B). unfold conn. rewrite A. exact B. }
  assert (V : forall p, In p (map fst (victims g rt is0 x)) -> is_open x p /\ important x p = false /\ ~ is_open m' p).
  { intros p H. apply in_map_iff in H. destruct H as ([q r] & E & H). cbn in E. subst q. destruct (PA _ _ H) as (A & B & C). destruct (victims_sub _ _ _ _ _ H) as [_ V2].
    split; [apply open_conn; eauto|]. split; [rewrite (prunable_important _ p r A) in V2; unfold important; apply negb_true_iff; exact V2|].
    intros (y & i & o & X & Y). rewrite C in X. injection X as <-. discriminate Y. }
  assert (K : forall p, is_open m' p <-> is_open x p /\ ~ In p (map fst (victims g rt is0 x))).
  { intros p. split.
    - intros Hp. assert (Hn : ~ In p (map fst (victims g rt is0 x))) by (intros X; apply V in X; tauto). split; auto.
      apply open_conn in Hp. apply open_conn. rewrite <- PB by exact Hn. exact Hp.
    - intros [Hp Hn]. apply open_conn in Hp. apply open_conn. rewrite PB by exact Hn. exact Hp. }
  split; [intros p Hp; apply C0, K; exact Hp|]. split.
  - intros p Hp Hr. apply K. split; [apply C0; exact Hp|]. intros X. apply V in X. destruct X as (_ & X & _). rewrite (I0 p Hp) in X. apply (protected_important m p HI) in Hr. congruence.
  - intros Hl prot Hprot. pose proof (open_list m' opens PC Hl) as P1.
    pose proof (prune_len g rt is0 x HX) as L.
    assert (P2 : Permutation (connected_pids (m_store x)) (map fst (victims g rt is0 x) ++ opens)).
    { apply NoDup_Permutation; [apply where_nodup; exact HX| |].
      - apply NoDup_app_intro; [apply victims_nodup; exact HX|apply Hl|]. intros p Hp1 Hp2. apply (proj2 Hl) in Hp2. apply V in Hp1. tauto.
      - intros p. rewrite in_app_iff, (proj2 Hl p), K. unfold connected_pids. rewrite where_in by exact HX. rewrite <- open_conn.
        split; [intros H; destruct (in_dec N.eq_dec p (map fst (victims g rt is0 x))); tauto|]. intros [H|[H _]]; auto. apply V in H. tauto. }
    assert (P3 : Permutation (connected_pids (m_store x)) (filter (fun p => negb (important x p)) (connected_pids (m_store x)) ++ prot)).
    { apply NoDup_Permutation; [apply where_nodup; exact HX| |].
      - apply NoDup_app_intro; [apply NoDup_filter, where_nodup; exact HX|apply Hprot|].
        intros p Hp1 Hp2. apply filter_In in Hp1. apply (proj2 Hprot) in Hp2. destruct Hp2 as [A B]. apply (protected_important m p HI) in B. rewrite <- (I0 p A) in B. rewrite B in Hp1. destruct Hp1 as [_ Hp1]. discriminate Hp1.
      - intros p. rewrite in_app_iff, (proj2 Hprot p), filter_In. unfold connected_pids. rewrite where_in by exact HX. rewrite <- open_conn.
        rewrite (protected_important m p HI). split.
        + intros H. destruct (important x p) eqn:E; [right; split; [apply C0; exact H|rewrite <- (I0 p); [exact E|apply C0; exact H]]|left; auto].
        + intros [[H _]|[H _]]; [exact H|apply C0; exact H]. }
    apply Permutation_length in P2. apply Permutation_length in P3. rewrite app_length, map_length in P2. rewrite app_length in P3. lia.
Qed.

(* ---- connection limits ---- *)
(* A connection that is established is kept exactly if the peer is protected or the other connections
   leave room; the node's own count includes the new one, so that with room for max only max - 1 fit. *)
Definition room (g : mcfg) (incoming : bool) (n_open n_open_or_dialed : nat) : Prop :=
  if incoming then S n_open_or_dialed < g_max_peers g else S n_open < g_max_out g.
Theorem C55_limit : forall local dur n g l now p a incoming others_open others_dialed,
  forward (l ++ [MEstablished now p a incoming]) ->
  let m := start local dur n g l in
  let m' := mstep g m (MEstablished now p a incoming) in
  established g m p a incoming = true ->
  lists_exactly others_open (fun q => is_open m q /\ q <> p) ->
  lists_exactly others_dialed (fun q => is_open_or_dialed m q /\ q <> p) ->
  (protected m p \/ room g incoming (length others_open) (length others_dialed) ->
     is_open m' p /\ m_events m' = m_events m ++ [PConnected p a] /\ m_temp m' = m_temp m) /\
  (~ protected m p -> ~ room g incoming (length others_open) (length others_dialed) ->
     ~ is_open m' p /\ (exists r, get_peer (m_store m') p = Some r /\ p_status r = Disconnecting false) /\
     (exists x, In (PDisconnectX p x) (m_events m')) /\ (~ In (PConnected p a) (m_events m) -> ~ In (PConnected p a) (m_events m')) /\
     cache_contains p (m_temp m') = true) /\
  (forall q, q <> p -> get_peer (m_store m') q = get_peer (m_store m) q).
Proof.
  intros local dur n g l now p a incoming oo od Hf m m' He Ho Hd.
  assert (HI : Inv false false (m_store m)) by apply mgr_inv.
  set (s1 := fst (update_status (g_store g) now p (NConnected a incoming) (m_store m))).
  assert (HI1 : Inv false false s1) by (apply update_status_inv; auto; intros b Hb h; discriminate h).
  assert (E1 : register_connection g now p a incoming m = with_store s1 m).
  { unfold register_connection. unfold established, banned in He. rewrite !andb_true_iff, negb_true_iff, negb_orb, andb_true_iff, !negb_true_iff in He.
    destruct He as [[_ [_ ->]] _]. reflexivity. }
  assert (Em : m' = if limit_reached g (with_store s1 m) incoming && negb (important (with_store s1 m) p) then disconnect g now p true (with_store s1 m) else push (PConnected p a) (with_store s1 m)).
  { unfold m'. cbn [mstep]. rewrite He. unfold on_established. rewrite E1. reflexivity. }
  destruct (now_conn (g_store g) now p a incoming (m_store m) HI) as (r1 & Hr1 & Hc1). fold s1 in Hr1.
  assert (Eq : forall q, q <> p -> get_peer s1 q = get_peer (m_store m) q) by (intros q Hq; apply other_same; auto).
  assert (Ei : important (with_store s1 m) p = true <-> protected m p).
  { rewrite (protected_important m p HI). unfold important. cbn [m_store with_store].
    pose proof (us_frame false false (g_store g) now p (NConnected a incoming) (m_store m) HI) as (F1 & F2 & F3 & F4 & _). fold s1 in F1, F2, F3, F4.
    assert (Ev : is_validator s1 p = is_validator (m_store m) p) by (unfold is_validator, idx_of, in_slots; rewrite F1, F2, F3, F4; reflexivity).
    assert (Ea : allowlisted s1 p = allowlisted (m_store m) p).
    { unfold allowlisted, get_peer. rewrite (ident_for_idx _ _ p F1). unfold s1, update_status. rewrite (ensure_eq false false) by auto. cbn [fst].
      unfold to_connected. rewrite made_ident, made_rec_of, rec_put_same. cbn [p_oper register_conn]. unfold made_rec. destruct (rec_of _ (m_store m)); reflexivity. }
    rewrite Ev, Ea. reflexivity. }
  assert (El : limit_reached g (with_store s1 m) incoming = true <-> ~ room g incoming (length oo) (length od)).
  { assert (L1 : length (connected_pids s1) = S (length oo)).
    { unfold s1, connected_pids. rewrite count_after by (auto; reflexivity). f_equal. apply Permutation_length, NoDup_Permutation; [apply NoDup_filter, where_nodup; auto|apply Ho|].
      intros q. unfold others. rewrite filter_In, (proj2 Ho q), where_in, negb_true_iff, N.eqb_neq, <- open_conn by auto. reflexivity. }
    assert (L2 : length (conn_or_dial_pids s1) = S (length od)).
    { unfold s1, conn_or_dial_pids. rewrite count_after by (auto; reflexivity). f_equal. apply Permutation_length, NoDup_Permutation; [apply NoDup_filter, where_nodup; auto|apply Hd|].
      intros q. unfold others. rewrite filter_In, (proj2 Hd q), where_in, negb_true_iff, N.eqb_neq, <- open_dial by auto. reflexivity. }
    unfold limit_reached, room. cbn [m_store with_store]. rewrite L1, L2. destruct incoming; rewrite Nat.leb_le; lia. }
  assert (Hkeep : protected m p \/ room g incoming (length oo) (length od) -> m' = push (PConnected p a) (with_store s1 m)).
  { intros H. rewrite Em. match goal with |- (if ?b then _ else _) = _ => destruct b eqn:B end; [|reflexivity].
    apply andb_true_iff in B. destruct B as [B1 B2]. apply El in B1. apply negb_true_iff in B2. rewrite <- Ei in H. destruct H as [H|H]; [congruence|contradiction]. }
  assert (Hdrop : ~ protected m p -> ~ room g incoming (length oo) (length od) -> m' = disconnect g now p true (with_store s1 m)).
  { intros H1 H2. apply El in H2. rewrite <- Ei in H1. apply not_true_iff_false in H1. rewrite Em, H1, H2. reflexivity. }
  destruct (disc_one (g_store g) now p s1 r1 HI1 Hr1 Hc1) as (D1 & D2 & D3).
  split; [|split].
  - intros H. rewrite (Hkeep H). split; [apply open_conn; exists r1; auto|]. split; reflexivity.
  - intros H1 H2. rewrite (Hdrop H1 H2).
    assert (Est : m_store (disconnect g now p true (with_store s1 m)) = fst (update_status (g_store g) now p (NDisconnecting false) s1)) by (rewrite disconnect_store; reflexivity).
    split; [intros (r & i & o & A & B); rewrite Est, D2 in A; injection A as <-; discriminate B|].
    split; [exists (with_status (Disconnecting false) r1); rewrite Est; split; [exact D2|reflexivity]|].
    split; [apply told_disconnect|]. split.
    + intros Hn. unfold disconnect. cbn [push with_events m_store with_store]. destruct (update_status _ _ _ _ s1) as [s2 act]. cbn [snd] in D1. subst act.
      cbn [apply_action]. unfold push at 1. cbn [m_events with_events]. rewrite in_app_iff. intros [H|[H|[]]]; [|discriminate H].
      unfold temp_ban in H. match type of H with context [match ?c with _ => _ end] => destruct c as [[t0 [b0 [o0|]]]|] end; cbn in H; rewrite ?in_app_iff in H; cbn in H; intuition congruence.
    + assert (Hf1 : forward l). { revert Hf. unfold forward. clear. generalize 0%N. induction l as [|x l IH]; intros t; cbn; auto. destruct (at_time x); [intros [A B]; split; eauto|eauto]. }
      destruct (start_any local dur n g l Hf1) as (t & J & Hg). specialize (Hg _ Hf). cbn in Hg. destruct Hg as [Hg _]. fold m in J.
      apply (disc_bans dur (Nat.max n 1) t g now p (with_store s1 m) r1); auto. apply (JX_vis _ _ _ _ m); auto.
  - intros q Hq. rewrite Em. match goal with |- context [if ?b then _ else _] => destruct b end.
    + rewrite disconnect_store. cbn [step m_store with_store]. rewrite D3 by exact Hq. apply Eq; exact Hq.
    + cbn [m_store push with_events with_store]. apply Eq; exact Hq.
Qed.

(* ---- discovery ---- *)
(* The table of peers to try: one entry per peer, never the node itself, exactly one address with an IP;
   the same for the queue of dials as far as the node itself is concerned. *)
Theorem C55_discovery_table : forall local dur n g l,
  let m := start local dur n g l in
  NoDup (map fst (m_disco m)) /\
  (forall p addrs, In (p, addrs) (m_disco m) -> p <> local /\ exists a x, addrs = [a] /\ a_ip a = Some x) /\
  (forall p addrs, In (p, addrs) (m_dials m) -> p <> local).
Proof.
  intros local dur n g l m. pose proof (DQ_run g l (mgr_new local dur n)) as H. cbn [m_local mgr_new] in H. specialize (H (DQ_new local dur n)).
  destruct H as [A B C]. split; [exact A|]. split; [intros p a Hp; exact (B _ Hp)|intros p a Hp; exact (C _ Hp)].
Qed.
(* After a heartbeat the table holds at most twice the target, only former entries, none of them on a
   refused address, connected, being dialed or banned.  A peer exchange never pushes it over the limit. *)
Definition may_dial (m : mgr) (p : pid) (a : maddr) : Prop :=
  (forall x, a_ip a = Some x -> ip_banned (m_store m) x = false) /\
  forall r, get_peer (m_store m) p = Some r ->
    match p_status r with Disconnected _ | Unknown | Disconnecting false => True | _ => False end.
Lemma eligible_may m p addrs a : eligible m p addrs = true -> In a addrs -> may_dial m p a.
Proof.
  unfold eligible, valid_ips, can_dial, may_dial. rewrite !andb_true_iff. intros [[_ [_ H3]] H4] Ha. split.
  - intros x Hx. rewrite forallb_forall in H3. specialize (H3 a Ha). rewrite Hx in H3. apply negb_true_iff. exact H3.
  - intros r Hr. rewrite Hr in H4. unfold peer_can_dial in H4. destruct (p_status r) as [| [] | | | |]; try discriminate H4; exact I.
Qed.
Theorem C55_discovery_heartbeat : forall local dur n g l now rt is0 is1 is2 others,
  let m := start local dur n g l in
  let m' := mstep g m (MHeartbeat now rt is0 is1 is2) in
  lists_exactly others (is_open_or_dialed m') ->
  length (m_disco m') <= 2 * g_target g /\
  (forall p addrs a, In (p, addrs) (m_disco m') -> In a addrs -> In (p, addrs) (m_disco m) /\ may_dial m' p a) /\
  exists new, m_dials m' = m_dials m ++ new /\ NoDup (map fst new) /\ length new <= g_target g - length others /\
    (length new < g_target g - length others -> m_disco m' = []) /\
    forall p addrs, In (p, addrs) new -> In (p, addrs) (m_disco m) /\ ~ In p (map fst (m_disco m')) /\
      p <> local /\ exists a, addrs = [a] /\ may_dial m' p a.
Proof.
  intros local dur n g l now rt is0 is1 is2 others m m' Ho.
  pose proof (DQ_run g l (mgr_new local dur n)) as H. cbn [m_local mgr_new] in H. specialize (H (DQ_new local dur n)). change (DQ local m) in H.
  unfold m' in *. clear m'. cbn [mstep] in *. rewrite hb_split in *. set (x := unban_expired now (prune_connected g now rt is0 (maintained g now m))) in *.
  assert (Hl : m_local x = local).
  { pose proof (mstep_local g m (MHeartbeat now rt is0 is1 is2)) as E. cbn [mstep] in E. rewrite hb_split in E. fold x in E.
    assert (E2 : m_local (discovery_beat g is1 is2 x) = m_local x).
    { unfold discovery_beat. cbn zeta. assert (DS : forall ll y, m_local (fold_left (fun m (e : pid * list maddr) => dial_peer (fst e) (snd e) m) ll y) = m_local y).
      { intros ll. induction ll as [|e ll IH]; intros y; cbn; auto. rewrite IH. apply local_dial. }
      destruct (max_discovery g <? _); [|destruct (_ <? max_discovery g)]; cbn [m_local with_disco push with_events]; rewrite DS; reflexivity. }
    rewrite <- E2, E. unfold m, start. rewrite run_local. reflexivity. }
  assert (Hq : disq x = disq m) by (unfold x; rewrite dq_expire, dq_prune, dq_maintained; reflexivity).
  pose proof (f_equal fst Hq) as Q1. pose proof (f_equal snd Hq) as Q2. cbn in Q1, Q2.
  set (y := discovery_beat g is1 is2 x) in *.
  assert (Sy : m_store y = m_store x) by apply discovery_beat_store.
  assert (Ly : m_local y = m_local x).
  { unfold y, discovery_beat. cbn zeta. assert (DS : forall ll z, m_local (fold_left (fun m (e : pid * list maddr) => dial_peer (fst e) (snd e) m) ll z) = m_local z).
    { intros ll. induction ll as [|e ll IH]; intros z; cbn; auto. rewrite IH. apply local_dial. }
    destruct (max_discovery g <? _); [|destruct (_ <? max_discovery g)]; cbn [m_local with_disco push with_events]; rewrite DS; reflexivity. }
  assert (Hmay : forall p addrs a, eligible x p addrs = true -> In a addrs -> may_dial y p a).
  { intros p addrs a A B. pose proof (eligible_may x p addrs a A B) as C. unfold may_dial in *. rewrite Sy. exact C. }
  assert (HNx : NoDup (map fst (m_disco x))) by (rewrite Q1; apply H).
  split; [|split].
  - pose proof (proj2 (beat_disco_len g is1 is2 x HNx)) as L. fold y in L. unfold max_discovery in L. lia.
  - intros p addrs a Hp Ha. apply beat_disco_sub in Hp. destruct Hp as [Hp _]. apply still_sub in Hp. destruct Hp as [A B]. rewrite Q1 in A. split; [exact A|]. eapply Hmay; eauto.
  - exists (to_dial g is1 x). split; [unfold y; rewrite beat_dials, Q2; reflexivity|].
    assert (HNt : NoDup (map fst (to_dial g is1 x))).
    { unfold to_dial. destruct (0 <? _); [|constructor]. apply choose_nodup. unfold still_eligible. apply NoDup_fst_filter. exact HNx. }
    assert (HIy : Inv false false (m_store y)).
    { replace (m_store y) with (m_store (mstep g m (MHeartbeat now rt is0 is1 is2))); [apply mstep_inv, mgr_inv|]. cbn [mstep]. rewrite hb_split. reflexivity. }
    assert (Eo : length (conn_or_dial_pids (m_store x)) = length others) by (rewrite <- Sy; symmetry; apply Permutation_length, dial_list; auto).
    split; [exact HNt|]. split; [rewrite to_dial_len, Eo; apply Nat.le_min_l|]. split.
    + rewrite to_dial_len, Eo. intros Hlt. destruct (m_disco y) as [|e d] eqn:Ed; [reflexivity|exfalso].
      assert (He : In e (m_disco y)) by (rewrite Ed; left; reflexivity). apply beat_disco_sub in He. destruct He as [He Hn].
      assert (Hsub : incl (still_eligible x) (to_dial g is1 x)).
      { assert (HNs : NoDup (to_dial g is1 x)) by (apply (NoDup_map_inv fst); exact HNt).
        apply (NoDup_length_incl HNs); [rewrite to_dial_len, Eo; unfold pid in *; lia|]. intros z Hz. apply to_dial_sub in Hz. exact Hz. }
      apply Hn. apply in_map. apply Hsub. exact He.
    + intros p addrs Hp. pose proof (to_dial_sub _ _ _ _ Hp) as Hs. apply still_sub in Hs. cbn [fst snd] in Hs. destruct Hs as [A B]. rewrite Q1 in A. split; [exact A|].
      split; [intros X; apply in_map_iff in X; destruct X as (e & Ee & He); apply beat_disco_sub in He; destruct He as [_ He]; apply He; rewrite Ee; apply (in_map fst _ _ Hp)|].
      destruct (dq_sane _ _ H _ A) as (S1 & a & ip & S2 & S3). cbn [fst snd] in S1, S2. split; [exact S1|]. exists a. split; [exact S2|]. eapply Hmay; [exact B|]. rewrite S2. left. reflexivity.
Qed.
Theorem C55_exchange_bounded : forall g m is x, length (m_disco m) <= 2 * g_target g ->
  length (m_disco (mstep g m (MExchange is x))) <= 2 * g_target g.
Proof.
  intros g m is x H. cbn [mstep]. unfold on_exchange. cbn zeta. destruct (Nat.ltb_spec (length (m_disco m)) (max_discovery g)) as [L|L]; [|exact H].
  cbn [m_disco with_disco]. eapply Nat.le_trans; [apply put_all_len|]. rewrite firstn_length. unfold max_discovery in *. unfold pid in *. lia.
Qed.
(* Entries come from peer exchanges and discovery queries only. *)
Theorem C55_discovery_sources : forall g m e p addrs, In (p, addrs) (m_disco (mstep g m e)) -> ~ In (p, addrs) (m_disco m) ->
  (exists is x, e = MExchange is x /\ exists k, In (k, (p, addrs)) x) \/ (exists l, e = MDiscovered l /\ In (p, addrs) l).
Proof.
  intros g m e p addrs H Hn.
  assert (D : forall m', disq m' = disq m -> In (p, addrs) (m_disco m') -> False).
  { intros m' E X. pose proof (f_equal fst E) as E1. cbn in E1. rewrite E1 in X. contradiction. }
  assert (DD : forall a b m', m_disco m' = m_disco m -> In (p, addrs) (m_disco (dial_peer a b m')) -> False).
  { intros a b m' E X. pose proof (f_equal fst (dq_dial a b m')) as E1. cbn in E1. rewrite E1, E in X. contradiction. }
  destruct e; cbn [mstep] in H; try (exfalso; eapply D; [|exact H]; reflexivity).
  - exfalso. unfold add_trusted_and_dial in H. eapply DD; [|exact H]. exact (f_equal fst (dq_temp_unban (i_key i) (with_store _ m))).
  - exfalso. eapply DD; [|exact H]. reflexivity.
  - exfalso. eapply D; [|exact H]. unfold penalize. destruct (is_local m p0); auto. destruct (process_penalty _ _ _ _ _) as [s a]. rewrite dq_action. reflexivity.
  - exfalso. eapply D; [|exact H]. apply dq_disconnect.
  - exfalso. eapply D; [|exact H]. unfold pending_out. destruct op as [q|]; auto. destruct (is_local m q); auto. destruct (dialing_now m q); auto. destruct (mgr_can_dial g m q); auto.
  - exfalso. eapply D; [|exact H]. destruct (established g m p0 a incoming); auto. unfold on_established.
    assert (R : disq (register_connection g now p0 a incoming m) = disq m) by (unfold register_connection; destruct (peer_banned _ _ _); reflexivity).
    destruct (_ && _); [rewrite dq_disconnect; exact R|exact R].
  - exfalso. eapply D; [|exact H]. unfold on_closed. destruct (0 <? remaining); auto. rewrite dq_disconnected. destruct (conn_or_disconnecting m p0); reflexivity.
  - exfalso. eapply D; [|exact H]. unfold on_dial_failure. destruct op as [q|]; auto. destruct (is_connected m q); auto. apply dq_disconnected.
  - left. exists is, x. split; auto. unfold on_exchange in H. cbn zeta in H. destruct (_ <? _) in H; [|contradiction]. cbn [m_disco with_disco] in H.
    apply put_all_in in H. destruct H as [H|H]; [contradiction|].
    assert (Hi : forall n0 (l0 : list (pid * list maddr)) y, In y (firstn n0 l0) -> In y l0) by (intros n0 l0 y Hy; rewrite <- (firstn_skipn n0 l0); apply in_app_iff; auto).
    apply Hi, choose_in in H. apply filter_In in H. destruct H as [H _]. apply in_map_iff in H. destruct H as ([k e] & E & H). cbn in E. subst e. exists k. exact H.
  - right. exists l. split; auto. unfold on_discovered in H. cbn [m_disco with_disco] in H. apply put_all_in in H. destruct H as [H|H]; [contradiction|]. apply filter_In in H. tauto.
  - exfalso. eapply D; [|exact H]. unfold on_committees. match goal with |- context [let '(_, _) := ?y in _] => destruct y as [s x] end.
    match goal with |- disq (prune_known ?y) = _ => change (disq y = disq m) end. rewrite dq_actions.
    match goal with |- disq (with_store s ?y) = _ => change (disq y = disq m) end. rewrite !dq_forgive_temp, !dq_chase. reflexivity.
  - exfalso. eapply D; [|exact H]. unfold on_prepare. match goal with |- context [let '(_, _) := ?y in _] => destruct y as [s x] end. rewrite dq_actions.
    match goal with |- disq (with_store s ?y) = _ => change (disq y = disq m) end. apply dq_forgive_temp.
  - exfalso. eapply D; [|exact H]. unfold add_known. rewrite dq_cache_known. reflexivity.
  - exfalso. eapply D; [|exact H]. apply dq_cache_known.
  - exfalso. eapply D; [|exact H]. unfold add_bootstrap. match goal with |- context [match ?y with Some _ => _ | None => _ end] => destruct y end; [reflexivity|]. rewrite dq_cache_known. reflexivity.
  - exfalso. eapply D; [|exact H]. unfold add_discovered. destruct (negb _); auto. destruct (stale _ _ _); auto. apply dq_cache_known.
  - exfalso. eapply D; [|exact H]. unfold add_self_advertised. destruct (in_slots _ _); [destruct (stale _ _ _); auto; apply dq_cache_known|]. destruct (N.eqb _ _); auto.
  - exfalso. eapply D; [|exact H]. unfold committee_rpcs. cbn [fst]. apply dq_chase.
  - exfalso. rewrite hb_split in H. apply beat_disco_sub in H. destruct H as [H _]. apply still_sub in H. destruct H as [H _].
    eapply D; [|exact H]. rewrite dq_expire, dq_prune, dq_maintained; reflexivity.
  - exfalso. apply Hn. unfold poll in H. destruct (m_events m) as [|ev t]; [destruct (m_dials m) as [|[q a] t]|]; exact H.
Qed.

(* What is sent along with a goodbye: exactly the open connections to peers of known identity, each with
   its last seen address. *)
Theorem C55_exchange_content : forall local dur n g l k p addrs,
  let m := start local dur n g l in
  In (k, (p, addrs)) (peer_exchange (m_store m)) <->
  exists r, rec_of (Confirmed k) (m_store m) = Some r /\ p_net r = Some p /\ (exists i o, p_status r = Connected i o) /\
    addrs = match p_addr r with Some a => [a] | None => [] end.
Proof.
  intros local dur n g l k p addrs m. assert (HI : Inv false false (m_store m)) by apply mgr_inv.
  unfold peer_exchange. rewrite in_flat_map. split.
  - intros ([id r] & Hin & H). cbn [snd] in H. apply (peers_rec false false) in Hin; auto.
    destruct (p_status r) as [i o| | | | |] eqn:Es; try destruct H. destruct (p_bls r) as [b|] eqn:Eb; [|destruct H]. destruct (p_net r) as [q|] eqn:En; [|destruct H].
    destruct H as [H|[]]. injection H as -> -> <-. exists r. destruct id as [k'|u].
    + destruct (wf_conf _ _ (proj1 HI) _ _ Hin) as [X _]. assert (k' = k) by congruence. subst k'. eauto 10.
    + destruct (wf_un _ _ (proj1 HI) _ _ Hin) as [X _]. congruence.
  - intros (r & A & B & (i & o & C) & D). exists (Confirmed k, r). split; [apply (peers_rec false false); auto|]. cbn [snd].
    destruct (wf_conf _ _ (proj1 HI) _ _ A) as [X _]. rewrite C, X, B, D. left. reflexivity.
Qed.

(* ---- examples and what does not hold ---- *)
Definition tiny : mcfg := mkMCfg dstore 1 3 4 (fun _ => true).
Definition three_in : list mev := (
  [MCommittees 1 [] [50] []; MKad 1 50 (mkInfo 10 [] 1 None); MEstablished 2 10 (from_ip 7) true; MEstablished 3 11 (from_ip 8) false;
   MEstablished 4 12 (from_ip 9) false; MPenalty 5 12 Mild])%N.
(* One member and two others are connected, the target is one: both others go, the member stays. *)
Theorem C55_example_prune :
  let m := start 1%N 600 100 tiny three_in in let m' := mstep tiny m (beat_at 6) in
  forward (three_in ++ [beat_at 6]) /\ connected_pids (m_store m) = [12; 11; 10]%N /\ important m 10%N = true /\ important m 11%N = false /\
  connected_pids (m_store m') = [10%N] /\ cache_contains 11%N (m_temp m') = true /\ cache_contains 12%N (m_temp m') = true.
Proof. split; [cbn; lia|]. vm_compute. repeat split. Qed.
(* With a target of two only the one with the lower score goes. *)
Theorem C55_example_prune_order :
  let g := mkMCfg dstore 2 9 9 (fun _ => true) in
  let m' := mstep g (start 1%N 600 100 g three_in) (beat_at 6) in connected_pids (m_store m') = [11; 10]%N.
Proof. vm_compute. reflexivity. Qed.
(* Discovered peers are dialed up to the target at the heartbeat. *)
Theorem C55_example_discovery :
  let l := [MDiscovered [(20, [from_ip 3]); (21, [from_ip 4]); (1, [from_ip 5]); (22, [])]]%N in
  let m := start 1%N 600 100 tiny l in let m' := mstep tiny m (beat_at 6) in
  map fst (m_disco m) = [21; 20]%N /\ m_dials m' = [(21, [from_ip 4])]%N /\ map fst (m_disco m') = [20]%N.
Proof. vm_compute. repeat split. Qed.
(* Refuted: "max_peers is the maximum number of peers allowed to connect".  The new connection is
   counted before the comparison, so with max_peers = 3 the third incoming peer is already sent away. *)
Theorem C55_refuted_max_peers :
  let l := [MEstablished 1 10 (from_ip 7) true; MEstablished 2 11 (from_ip 8) true]%N in
  let e := MEstablished 3%N 12%N (from_ip 9) true in
  let m := start 1%N 600 100 tiny l in let m' := mstep tiny m e in
  g_max_peers tiny = 3 /\ forward (l ++ [e]) /\ connected_pids (m_store m) = [11; 10]%N /\ established tiny m 12%N (from_ip 9) true = true /\
  connected_pids (m_store m') = [11; 10]%N /\ cache_contains 12%N (m_temp m') = true.
Proof. split; [reflexivity|]. split; [cbn; lia|]. vm_compute. repeat split. Qed.
(* Refuted: "a connection that was accepted is not given up because of the limit".  A peer that is
   already connected and opens a second connection while the table is full loses both and is
   temporarily banned: the limit is checked without looking at earlier connections. *)
Theorem C55_refuted_second_connection :
  let l := [MEstablished 1 10 (from_ip 7) true; MEstablished 2 11 (from_ip 8) true; MTrusted 3 50 (mkInfo 20 [from_ip 9] 0 None); MEstablished 4 20 (from_ip 9) false]%N in
  let e := MEstablished 5%N 10%N (from_ip 7) true in
  let m := start 1%N 600 100 tiny l in let m' := mstep tiny m e in
  forward (l ++ [e]) /\ In 10%N (connected_pids (m_store m)) /\ ~ In 10%N (connected_pids (m_store m')) /\ cache_contains 10%N (m_temp m') = true.
Proof. split; [cbn; lia|]. split; [vm_compute; auto|]. split; [vm_compute; intuition discriminate|vm_compute; reflexivity]. Qed.
(* Refuted: "the discovery table never holds more than its limit": what a discovery query returns is
   taken in without a bound until the next heartbeat. *)
Theorem C55_refuted_discovery_bound : forall k,
  exists l, length (m_disco (start 0%N 600 100 tiny [MDiscovered l])) = k.
Proof.
  intros k. set (l := map (fun i => (N.of_nat i, [from_ip 3])) (seq 1 k)). exists l. cbn [start mrun fold_left mstep]. unfold on_discovered. cbn [m_disco with_disco].
  assert (G : forall n s d, (forall x, In x (map fst d) -> exists i, x = N.of_nat i /\ i < s) -> 1 <= s ->
     length (fold_left (fun d e => put N.eqb (fst e) (snd e) d)
       (filter (fun e => eligible (mgr_new 0%N 600 100) (fst e) (snd e)) (map (fun i => (N.of_nat i, [from_ip 3])) (seq s n))) d) = n + length d).
  { induction n as [|n IH]; intros s d Hd Hs; [reflexivity|]. cbn [seq map filter].
    cbn [fst snd]. assert (E : eligible (mgr_new 0%N 600 100) (N.of_nat s) [from_ip 3] = true).
    { unfold eligible, is_local. cbn [m_local mgr_new]. destruct (N.eqb_spec 0 (N.of_nat s)) as [Z|Z]; [lia|reflexivity]. }
    rewrite E. cbn [fold_left]. rewrite IH; [|intros x Hx; cbn in Hx; destruct Hx as [<-|Hx]; [exists s; split; [reflexivity|lia]|]|lia].
    - unfold put. cbn [length fst snd]. rewrite del_absent; [apply Nat.add_succ_r|]. apply (get_None_notin N.eqb neq). intros X. apply Hd in X. destruct X as (i & X & Y). lia.
    - apply in_map_iff in Hx. destruct Hx as (e & <- & He). apply (in_del N.eqb neq) in He. destruct (Hd (fst e)) as (i & X & Y); [apply in_map; tauto|]. exists i. split; [exact X|lia]. }
  eapply eq_trans; [apply (G k 1 []); [intros x []|lia]|apply Nat.add_0_r].
Qed.
