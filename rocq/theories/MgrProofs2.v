(* The temporary-ban cache inside the manager, and what the event queue says about the blacklist. *)
From Coq Require Import Sorting.Sorted.
From Verif Require Import Util AMap PeersModel PeersSpec PeersProofs PeersProofs2 PeersProofs3 PeersProofs4 PeersProofs6 CacheModel CacheSpec CacheProofs MgrModel MgrSpec MgrProofs.
Local Open Scope N_scope.

Lemma lw_app p l1 : forall b l2, last_word p b (l1 ++ l2) = last_word p (last_word p b l1) l2.
Proof. induction l1 as [|e l1 IH]; intros b l2; cbn; auto. destruct e; auto. Qed.
Lemma CI_mono c t t' : CI c t -> t <= t' -> CI c t'.
Proof.
  intros [A B C D E F G] H. constructor; auto. rewrite Forall_forall in *. intros x Hx. specialize (G x Hx). cbn in *. lia.
Qed.
Lemma ci_contains c t p : CI c t -> cache_contains p c = true <-> In p (map fst (c_list c)).
Proof. intros H. unfold cache_contains. rewrite memN_In. apply (ci_eq _ _ H). Qed.

(* X: peers whose temporary ban may have been lifted without a word *)
Record JX (g_dur : N) (g_n : nat) (X : pid -> Prop) (t : N) (m : mgr) : Prop := mkJX {
  j_ci : CI (m_temp m) t;
  j_dur : c_dur (m_temp m) = g_dur;
  j_max : c_max (m_temp m) = g_n;
  j_dead : m_dead m = false;
  j_list : forall p, blacklisted m p = true -> cache_contains p (m_temp m) = true \/ X p }.

(* everything the invariant reads *)
Definition vis (m : mgr) := (m_temp m, m_dead m, m_black m, m_events m).
Lemma JX_vis d n X t m m' : vis m' = vis m -> JX d n X t m -> JX d n X t m'.
Proof.
  unfold vis. intros E [A B C D F]. injection E as E1 E2 E3 E4. constructor; try congruence.
  intros p H. rewrite E1. apply F. unfold blacklisted in *. rewrite <- E3, <- E4. exact H.
Qed.
Lemma JX_mono d n X t t' m : t <= t' -> JX d n X t m -> JX d n X t' m.
Proof. intros H [A B C D F]. constructor; auto. eapply CI_mono; eauto. Qed.
Lemma JX_weak d n (X Y : pid -> Prop) t m : (forall p, blacklisted m p = true -> X p -> Y p) -> JX d n X t m -> JX d n Y t m.
Proof. intros H [A B C D F]. constructor; auto. intros p Hp. destruct (F p Hp); auto. Qed.
Definition silent (e : pevent) : bool := match e with PBanned _ | PUnbanned _ => false | _ => true end.
Lemma bl_push m e p : blacklisted (push e m) p =
  match e with
  | PBanned q => if N.eqb q p then true else blacklisted m p
  | PUnbanned q => if N.eqb q p then false else blacklisted m p
  | _ => blacklisted m p
  end.
Proof. unfold blacklisted, push. cbn. rewrite lw_app. destruct e; reflexivity. Qed.
Lemma JX_push d n X t m e : silent e = true -> JX d n X t m -> JX d n X t (push e m).
Proof.
  intros He [A B C D F]. constructor; auto. intros p Hp. rewrite bl_push in Hp. apply F. destruct e; auto; discriminate.
Qed.
Lemma JX_unban d n X t m q : JX d n X t m -> JX d n (fun p => X p /\ p <> q) t (push (PUnbanned q) m).
Proof.
  intros [A B C D F]. constructor; auto. intros p Hp. rewrite bl_push in Hp.
  destruct (N.eqb_spec q p); [discriminate|]. destruct (F p Hp); auto.
Qed.
Lemma JX_unban' d n X t m q : JX d n X t m -> JX d n X t (push (PUnbanned q) m).
Proof. intros H. eapply JX_weak; [|apply JX_unban; exact H]. cbn. tauto. Qed.

Lemma cap_in n k now h : (1 <= n)%nat -> In (k, now) (cap n (without k h ++ [(k, now)])).
Proof.
  intros H. unfold cap. rewrite app_length. cbn [length].
  rewrite skipn_app. apply in_app_iff. right.
  replace (length (without k h) + 1 - n - length (without k h))%nat with 0%nat by lia. left. reflexivity.
Qed.
Lemma temp_ban_ok d n X t now p m : JX d n X t m -> t <= now ->
  JX d n X now (temp_ban now p m) /\ cache_contains p (m_temp (temp_ban now p m)) = true.
Proof.
  intros [A B C D F] Hn. destruct (insert_ok (m_temp m) t now p A Hn) as (c' & b & o & E & A' & B' & C' & L & Hb & Ho).
  unfold temp_ban. rewrite E. pose proof (ci_max _ _ A) as Hmax.
  assert (Hp : cache_contains p c' = true).
  { apply (ci_contains _ _ _ A'). rewrite L. apply in_map_iff. exists (p, now). split; auto. apply cap_in; auto. }
  assert (Hkeep : forall q, q <> p -> o <> Some q -> cache_contains q (m_temp m) = true -> cache_contains q c' = true).
  { intros q Hq Hoq Hc. apply (ci_contains _ _ _ A) in Hc. apply (ci_contains _ _ _ A'). rewrite L.
    destruct (memN p (map fst (c_list (m_temp m)))) eqn:M; cbn [negb andb] in Ho.
    - apply memN_In in M. rewrite cap_id.
      + rewrite map_app, in_app_iff. left. apply map_fst_without. auto.
      + rewrite app_length. cbn. pose proof (take_out_eq p _ (ci_nd _ _ A)) as HT.
        destruct (take_out p (c_list (m_temp m))) as [[x r]|]; [|tauto]. destruct HT as (_ & -> & _ & HT).
        pose proof (ci_le _ _ A). lia.
    - apply memN_nIn in M. rewrite without_notin by auto.
      destruct (Nat.eqb_spec (c_max (m_temp m)) (length (c_list (m_temp m)))) as [EL|EL].
      + destruct (c_list (m_temp m)) as [|e0 rest] eqn:EL2; [destruct Hc|]. cbn in Ho. subst o.
        unfold cap. rewrite EL. cbn [app length]. rewrite app_length. cbn [length].
        replace (S (length rest + 1) - S (length rest))%nat with 1%nat by lia. cbn [skipn].
        rewrite map_app, in_app_iff. left. destruct Hc as [Hc|Hc]; auto. exfalso. apply Hoq. rewrite <- Hc. reflexivity.
      + rewrite cap_id by (rewrite app_length; cbn; pose proof (ci_le _ _ A); lia).
        rewrite map_app, in_app_iff. auto. }
  assert (J0 : forall q, blacklisted m q = true -> o <> Some q -> cache_contains q c' = true \/ X q).
  { intros q Hq Hoq. destruct (N.eq_dec q p) as [->|Hne]; [auto|]. destruct (F q Hq); auto. }
  destruct o as [q0|].
  - split; [|exact Hp]. constructor; [exact A'|cbn; congruence|cbn; congruence|exact D|].
    intros q Hq. rewrite bl_push in Hq. destruct (N.eqb_spec q0 q); [discriminate|]. apply J0; auto. congruence.
  - split; [|exact Hp]. constructor; [exact A'|cbn; congruence|cbn; congruence|exact D|]. intros q Hq. apply J0; auto. congruence.
Qed.
Lemma lw_filter p q l : q <> p -> forall b, last_word q b (filter (not_unbanned p) l) = last_word q b l.
Proof.
  intros Hne. induction l as [|e l IH]; intros b; cbn [filter last_word]; auto.
  destruct e as [x|x a|x|x y|x|x|x|]; cbn [not_unbanned last_word filter]; auto.
  destruct (N.eqb_spec x p); cbn [negb last_word]; auto. subst x. destruct (N.eqb_spec p q); [congruence|auto].
Qed.
Lemma JX_ban d n X t p m : JX d n X t m -> cache_contains p (m_temp m) = true -> JX d n X t (process_ban p m).
Proof.
  intros [A B C D F] Hp. unfold process_ban. constructor; auto. intros q Hq. rewrite bl_push in Hq. cbn [m_temp push with_events].
  destruct (N.eqb_spec p q) as [->|Hne]; [auto|]. apply F. unfold blacklisted in *. cbn [m_events with_events m_black] in Hq.
  rewrite lw_filter in Hq by congruence. exact Hq.
Qed.
Lemma JX_action d n X t now p a m : JX d n X t m -> t <= now ->
  JX d n (fun q => X q /\ (a = AUnban -> q <> p)) now (apply_action now p a m).
Proof.
  intros H Hn. assert (W : forall m', a <> AUnban -> JX d n X now m' -> JX d n (fun q => X q /\ (a = AUnban -> q <> p)) now m').
  { intros m' Ha. apply JX_weak. intros q _ Hq. split; [auto|intros; congruence]. }
  destruct (temp_ban_ok d n X t now p m H Hn) as [H1 H2]. destruct a; cbn [apply_action].
  - apply W; [discriminate|]. apply JX_ban; auto.
  - apply W; [discriminate|]. eapply JX_mono; eauto.
  - apply W; [discriminate|]. apply JX_push; auto.
  - apply W; [discriminate|]. apply JX_push; auto.
  - eapply JX_weak; [|apply JX_unban; eapply JX_mono; eauto]. cbn. tauto.
Qed.
Lemma JX_actions d n now l : forall X t m, JX d n X t m -> t <= now ->
  JX d n (fun q => X q /\ ~ In (q, AUnban) l) now (apply_actions now l m).
Proof.
  induction l as [|[p a] l IH]; intros X t m H Hn.
  - cbn. eapply JX_weak; [|eapply JX_mono; eauto]. cbn. tauto.
  - change (apply_actions now ((p, a) :: l) m) with (apply_actions now l (apply_action now p a m)).
    eapply JX_weak; [|eapply IH; [eapply JX_action; eauto|lia]]. cbn. intros q _ ((Hq & Ha) & Hl). split; [auto|].
    intros [E|E]; [injection E as -> ->; apply Ha; auto|auto].
Qed.
Lemma JX_actions' d n X now l t m : JX d n X t m -> t <= now -> JX d n X now (apply_actions now l m).
Proof. intros H Hn. eapply JX_weak; [|eapply JX_actions; eauto]. cbn. tauto. Qed.
Lemma temp_unban_ok d n X t p m : JX d n X t m -> JX d n (fun q => X q \/ q = p) t (temp_unban p m).
Proof.
  intros [A B C D F]. unfold temp_unban. destruct (remove_ok (m_temp m) t p A) as (c' & b & E & A' & B' & C' & L & Hb). rewrite E.
  constructor; [exact A'|cbn; congruence|cbn; congruence|exact D|]. intros q Hq. destruct (N.eq_dec q p); [auto|].
  destruct (F q Hq) as [H|H]; auto. left. apply (ci_contains _ _ _ A'). rewrite L. apply map_fst_without. split; auto.
  apply (ci_contains _ _ _ A); auto.
Qed.
Lemma temp_unban_vis p m : m_black (temp_unban p m) = m_black m /\ m_events (temp_unban p m) = m_events m /\ m_known (temp_unban p m) = m_known m.
Proof. unfold temp_unban. destruct (cache_remove p (m_temp m)) as [[c b]|]; auto. Qed.
Lemma forgive_temp_ok d n l : forall X t m, JX d n X t m ->
  JX d n (fun q => X q \/ exists k i, In k l /\ get N.eqb k (m_known m) = Some i /\ i_key i = q) t (forgive_temp l m) /\
  m_black (forgive_temp l m) = m_black m /\ m_events (forgive_temp l m) = m_events m /\ m_known (forgive_temp l m) = m_known m.
Proof.
  induction l as [|k l IH]; intros X t m H.
  - cbn. split; auto. eapply JX_weak; [|exact H]. auto.
  - change (forgive_temp (k :: l) m) with (forgive_temp l (match auth_to_peer k m with Some (p, _) => temp_unban p m | None => m end)).
    unfold auth_to_peer. destruct (get N.eqb k (m_known m)) as [i|] eqn:E.
    + destruct (temp_unban_vis (i_key i) m) as (V1 & V2 & V3).
      destruct (IH _ t _ (temp_unban_ok d n X t (i_key i) m H)) as (J & W1 & W2 & W3). rewrite V3 in J.
      split; [|repeat split; congruence]. eapply JX_weak; [|exact J]. cbn. intros q _ [[Hq|Hq]|(k' & i' & Hk & Hi & Hq)]; auto.
      * right. exists k, i. auto.
      * right. exists k', i'. auto.
    + destruct (IH X t m H) as (J & W). split; auto. eapply JX_weak; [|exact J]. cbn. intros q _ [Hq|(k' & i' & Hk & Hi & Hq)]; auto.
      right. exists k', i'. auto.
Qed.
Lemma dial_vis p addrs m : vis (dial_peer p addrs m) = vis m.
Proof. unfold dial_peer. destruct (is_local m p); auto. destruct (get_peer (m_store m) p) as [r|]; auto. destruct (p_status r); reflexivity. Qed.
Lemma dials_vis l : forall m, vis (fold_left (fun m (e : pid * list maddr) => dial_peer (fst e) (snd e) m) l m) = vis m.
Proof. induction l as [|p l IH]; intros m; cbn [fold_left]; [reflexivity|]. rewrite IH. apply dial_vis. Qed.
Lemma JX_chase d n X t l m : JX d n X t m -> JX d n X t (chase l m).
Proof.
  intros H. unfold chase. match goal with |- context [match ?x with [] => _ | _ => _ end] => destruct x end; auto.
  apply JX_push; auto.
Qed.
Lemma chase_bl l m p : blacklisted (chase l m) p = blacklisted m p.
Proof. unfold chase. match goal with |- context [match ?x with [] => _ | _ => _ end] => destruct x end; auto. rewrite bl_push. reflexivity. Qed.
Lemma chase_known l m : m_known (chase l m) = m_known m.
Proof. unfold chase. match goal with |- context [match ?x with [] => _ | _ => _ end] => destruct x end; auto. Qed.
Lemma JX_disconnect d n X t g now p px m : JX d n X t m -> t <= now -> JX d n X now (disconnect g now p px m).
Proof.
  intros H Hn. unfold disconnect. set (e := if px then _ else _). destruct (update_status _ _ _ _ _) as [s a].
  assert (G : JX d n X t (with_store s (push e m))).
  { apply (JX_vis d n X t (push e m)); [reflexivity|]. apply JX_push; [|exact H]. unfold e. destruct px; reflexivity. }
  eapply JX_weak; [|eapply JX_action; [exact G|exact Hn]]. cbn. tauto.
Qed.
Lemma JX_prune_loop d n X g now l : forall e m, JX d n X now m -> JX d n X now (prune_loop g now e l m).
Proof. induction l as [|p l IH]; intros [|e] m H; cbn [prune_loop]; auto. apply IH. eapply JX_disconnect; eauto. lia. Qed.
Lemma JX_unbans d n X t l : forall m, JX d n X t m -> JX d n X t (with_events (m_events m ++ map PUnbanned l) m).
Proof.
  induction l as [|p l IH]; intros m H; cbn [map].
  - eapply JX_vis; [|exact H]. unfold vis. cbn. rewrite app_nil_r. reflexivity.
  - specialize (IH _ (JX_unban' d n X t m p H)). eapply JX_vis; [|exact IH]. unfold vis. cbn. rewrite <- app_assoc. reflexivity.
Qed.
Lemma JX_disconnected d n X t g now p m : JX d n X t m -> t <= now -> JX d n X now (on_disconnected g now p m).
Proof.
  intros H Hn. unfold on_disconnected. destruct (register_disconnected_a _ _ _ _) as [[s a] pr]. apply JX_unbans.
  assert (G : JX d n X now (with_store s m)) by (apply (JX_vis d n X now m); [reflexivity|eapply JX_mono; eauto]).
  destruct a; auto. eapply JX_weak; [|eapply JX_action; [exact G|lia]]. cbn. tauto.
Qed.
Lemma pushes_events l : forall m, fold_left (fun m p => push (PUnbanned p) m) l m = with_events (m_events m ++ map PUnbanned l) m.
Proof.
  induction l as [|p l IH]; intros m; cbn [fold_left map].
  - destruct m. cbn. rewrite app_nil_r. reflexivity.
  - rewrite IH. destruct m. unfold push, with_events. cbn. rewrite <- app_assoc. reflexivity.
Qed.
Lemma lw_unbans l p : forall b, last_word p b (map PUnbanned l) = b && negb (memN p l).
Proof.
  induction l as [|q l IH]; intros b; cbn; [rewrite andb_true_r; auto|]. fold (memN p l). rewrite IH.
  rewrite (N.eqb_sym q p). destruct (N.eqb p q); cbn; [rewrite andb_false_r|]; auto.
Qed.
Lemma JX_expire d n X t now m : JX d n X t m -> t <= now ->
  JX d n X now (unban_expired now m) /\ c_list (m_temp (unban_expired now m)) = unexpired d now (c_list (m_temp m)).
Proof.
  intros [A B C D F] Hn. unfold unban_expired. pose proof (beat_ok (m_temp m) t now A Hn) as H.
  destruct (cache_beat now (m_temp m)) as [c' out]. destruct H as (A' & B' & C' & L & O). rewrite pushes_events. cbn [m_temp with_events with_temp].
  split; [|congruence]. constructor; [exact A'|cbn; congruence|cbn; congruence|exact D|]. intros p Hp. unfold blacklisted in Hp. cbn in Hp. rewrite lw_app, lw_unbans in Hp.
  apply andb_true_iff in Hp. destruct Hp as [Hp Ho]. apply negb_true_iff, memN_nIn in Ho.
  destruct (F p Hp) as [Hc|]; auto. left. apply (ci_contains _ _ _ A) in Hc. apply (ci_contains _ _ _ A'). rewrite L.
  apply in_map_iff in Hc. destruct Hc as (e & <- & He). apply in_map_iff. exists e. split; auto. unfold unexpired. apply filter_In. split; auto.
  destruct (now <? snd e + c_dur (m_temp m)) eqn:Q; auto. exfalso. apply Ho. rewrite O. apply in_map. apply filter_In. rewrite Q. auto.
Qed.
Lemma JX_discovery d n X t g is1 is2 m : JX d n X t m -> JX d n X t (discovery_beat g is1 is2 m).
Proof.
  intros H. unfold discovery_beat.
  set (m1 := fold_left _ (to_dial g is1 m) _).
  assert (G : JX d n X t m1) by (eapply JX_vis; [|exact H]; unfold m1; rewrite dials_vis; reflexivity).
  destruct (_ <? _)%nat; [apply (JX_vis d n X t m1); [reflexivity|exact G]|]. destruct (_ <? _)%nat; [|apply (JX_vis d n X t m1); [reflexivity|exact G]].
  apply (JX_vis d n X t (push PDiscovery m1)); [reflexivity|]. apply (JX_push d n X t m1 PDiscovery eq_refl G).
Qed.
Lemma JX_cache_known d n X t g now k i m : JX d n X t m -> t <= now -> JX d n X now (cache_known g now k i m).
Proof.
  intros H Hn. unfold cache_known. match goal with |- context [let '(s, acts) := ?x in _] => destruct x as [s a] end.
  eapply JX_actions'; [|exact Hn]. eapply JX_vis; [|exact H]. reflexivity.
Qed.

(* Unban actions for members recorded as Banned. *)
Lemma forgive_inv' c now s k : Inv false false s -> Inv false false (forgive c now s k).
Proof. apply (forgive_inv false). Qed.
Lemma forgive_acts c now l : forall s k r t p, Inv false false s -> In k l -> rec_of (Confirmed k) s = Some r ->
  p_net r = Some p -> p_status r = Banned t -> In (p, AUnban) (snd (forgive_a c now l s)).
Proof.
  assert (Hacc : forall l s acc x, In x acc ->
    In x (snd (fold_left (fun acc k => (forgive c now (fst acc) k, snd acc ++ forgive_act c now (fst acc) k)) l (s, acc)))).
  { clear. induction l as [|k l IH]; intros s acc x H; cbn [fold_left fst snd]; auto. apply IH. apply in_app_iff. auto. }
  assert (G : forall l s acc k r t p, Inv false false s -> In k l -> rec_of (Confirmed k) s = Some r ->
    p_net r = Some p -> p_status r = Banned t ->
    In (p, AUnban) (snd (fold_left (fun acc k => (forgive c now (fst acc) k, snd acc ++ forgive_act c now (fst acc) k)) l (s, acc)))).
  { clear l. induction l as [|k' l IH]; intros s acc k r t p HI Hk Hr Hp Hs; [destruct Hk|]. cbn [fold_left fst snd].
    destruct (N.eq_dec k k') as [<-|Hne].
    - apply Hacc. apply in_app_iff. right. unfold forgive_act. rewrite Hr, Hp.
      assert (Hi : identity_for s p = Confirmed k) by (apply (id_back false false s (Confirmed k) r); auto).
      rewrite (ensure_eq false false) by auto. cbn [fst].
      rewrite (made_id c now p s r) by (rewrite Hi; auto).
      assert (Em : made_rec c now p s = r) by (unfold made_rec; rewrite Hi, Hr; auto). rewrite Em, Hs.
      unfold update_status. rewrite (ensure_eq false false) by auto. rewrite Em, (made_id c now p s r) by (rewrite Hi; auto).
      unfold to_unbanned. rewrite Hi, Hr, Hs. left. reflexivity.
    - destruct (forgive_eff false c now s k' HI) as (Hf & _). 
      apply (IH _ _ k r t p); [apply forgive_inv'; auto|destruct Hk; [congruence|auto]|rewrite Hf; [auto|congruence]|auto|auto]. }
  intros s k r t p. apply G.
Qed.

(* ---------- every call ---------- *)
Definition lifted (m : mgr) (e : mev) (p : pid) : Prop :=
  match e with
  | MTrusted _ _ i => p = i_key i
  | MCommittees _ a b d => exists k i, In k (a ++ b ++ d) /\ get N.eqb k (m_known m) = Some i /\ i_key i = p
  | MPrepare _ l => exists k i, In k l /\ get N.eqb k (m_known m) = Some i /\ i_key i = p
  | _ => False
  end.
Definition later (t : N) (e : mev) : N := match at_time e with Some now => now | None => t end.
Definition on_time (t : N) (e : mev) : Prop := match at_time e with Some now => t <= now | None => True end.
Lemma bl_vis m m' p : m_black m' = m_black m -> m_events m' = m_events m -> blacklisted m' p = blacklisted m p.
Proof. unfold blacklisted. intros -> ->. reflexivity. Qed.
Lemma JX_poll d n X t m e l : JX d n X t m -> m_events m = e :: l -> JX d n X t (with_black (deliver e (m_black m)) (with_events l m)).
Proof.
  intros [A B C D F] E. constructor; auto. intros p Hp. cbn [m_temp with_black with_events]. apply F. unfold blacklisted in *.
  cbn [m_black m_events with_black with_events] in Hp. rewrite E. cbn [last_word].
  destruct e as [x|x a|x|x y|x|x|x|]; cbn [deliver] in Hp; auto.
  - replace (memN p (set_insert x (m_black m))) with (if N.eqb x p then true else memN p (m_black m)) in Hp; auto.
    symmetry. apply eq_true_iff_eq. rewrite memN_In, set_insert_in. destruct (N.eqb_spec x p); [subst; intuition auto|].
    rewrite memN_In. intuition congruence.
  - replace (memN p (set_remove x (m_black m))) with (if N.eqb x p then false else memN p (m_black m)) in Hp; auto.
    symmetry. apply eq_true_iff_eq. rewrite memN_In, set_remove_in. destruct (N.eqb_spec x p); [subst; intuition congruence|].
    rewrite memN_In. intuition congruence.
Qed.
Lemma mstep_JX g d n X t m e : JX d n X t m -> on_time t e ->
  JX d n (fun p => X p \/ lifted m e p) (later t e) (mstep g m e).
Proof.
  intros H Ht.
  assert (W : forall t' m', JX d n X t' m' -> JX d n (fun p => X p \/ lifted m e p) t' m') by (intros t' m'; apply JX_weak; auto).
  assert (S : forall t' m', vis m' = vis m -> t <= t' -> JX d n (fun p => X p \/ lifted m e p) t' m').
  { intros t' m' Ev Hl. apply W. apply (JX_vis d n X t' m); auto. eapply JX_mono; eauto. }
  destruct e; cbn [mstep later at_time on_time] in *.
  - unfold add_trusted_and_dial. eapply JX_vis; [apply dial_vis|].
    eapply JX_vis with (m := temp_unban (i_key i) (with_store (add_trusted (g_store g) now k (i_key i) (m_store m)) m)); [reflexivity|].
    eapply JX_weak; [|apply temp_unban_ok; apply (JX_vis d n X now m); [reflexivity|eapply JX_mono; eauto]]. cbn. tauto.
  - apply S; [apply dial_vis|lia].
  - unfold penalize. destruct (is_local m p); [apply S; auto|]. destruct (process_penalty _ _ _ _ _) as [s a]. apply W.
    eapply JX_weak; [|eapply JX_action; [apply (JX_vis d n X t m); [reflexivity|exact H]|exact Ht]]. cbn. tauto.
  - apply W. eapply JX_disconnect; eauto.
  - unfold pending_out. destruct op as [p|]; [|apply S; auto]. destruct (is_local m p); [apply S; auto|].
    destruct (dialing_now m p); [apply S; auto|]. destruct (mgr_can_dial g m p); apply S; auto.
  - destruct (established g m p a incoming); [|apply S; auto]. unfold on_established.
    assert (G : JX d n X t (register_connection g now p a incoming m)).
    { unfold register_connection. destruct (peer_banned _ _ _); [auto|]. apply (JX_vis d n X t m); [reflexivity|exact H]. }
    apply W. destruct (_ && _); [eapply JX_disconnect; eauto|]. apply JX_push; auto. eapply JX_mono; eauto.
  - unfold on_closed. destruct (0 <? remaining)%nat; [apply S; auto|]. apply W.
    destruct (conn_or_disconnecting m p); eapply JX_disconnected; eauto. apply JX_push; auto.
  - unfold on_dial_failure. destruct op as [p|]; [|apply S; auto]. destruct (is_connected m p); [apply S; auto|].
    apply W. eapply JX_disconnected; eauto.
  - unfold on_exchange. destruct (_ <? _)%nat; apply S; auto; lia.
  - apply S; [reflexivity|lia].
  - unfold on_committees.
    assert (H1 : JX d n X t (chase d0 (chase b m))) by (apply JX_chase, JX_chase; auto).
    assert (K1 : m_known (chase d0 (chase b m)) = m_known m) by (rewrite !chase_known; auto).
    set (m1 := chase d0 (chase b m)) in *.
    destruct (forgive_temp_ok d n a X t m1 H1) as (J2 & _ & _ & K2).
    destruct (forgive_temp_ok d n b _ t _ J2) as (J3 & _ & _ & K3).
    destruct (forgive_temp_ok d n d0 _ t _ J3) as (J4 & _ & _ & K4).
    set (m2 := forgive_temp d0 _) in *. destruct (forgive_a _ _ _ _) as [s acts].
    eapply JX_vis with (m := apply_actions now acts (with_store s m2)); [reflexivity|].
    eapply JX_actions'; [|exact Ht]. apply (JX_vis d n _ t m2); [reflexivity|].
    eapply JX_weak; [|exact J4]. rewrite K3, K2, K1. cbn. intros p _ [[[Hx|Hx]|Hx]|Hx]; auto; right;
      destruct Hx as (k & i & Hk & Hi & Hp); exists k, i; rewrite !in_app_iff; auto.
  - unfold on_prepare. destruct (forgive_temp_ok d n l X t m H) as (J2 & _ & _ & K2).
    destruct (forgive_a _ _ _ _) as [s acts]. eapply JX_actions'; [|exact Ht]. apply (JX_vis d n _ t (forgive_temp l m)); [reflexivity|exact J2].
  - unfold add_known. apply W. eapply JX_cache_known; [|exact Ht]. apply (JX_vis d n X t m); [reflexivity|exact H].
  - unfold add_restored. apply W. eapply JX_cache_known; eauto.
  - unfold add_bootstrap. destruct (get _ _ _); [apply S; auto|]. apply W. eapply JX_cache_known; [|exact Ht]. apply (JX_vis d n X t m); [reflexivity|exact H].
  - unfold add_discovered. destruct (negb _); [apply S; auto|]. destruct (stale _ _ _); [apply S; auto|]. apply W. eapply JX_cache_known; eauto.
  - unfold add_self_advertised. destruct (in_slots _ _).
    + destruct (stale _ _ _); [apply S; auto|]. apply W. eapply JX_cache_known; eauto.
    + destruct (N.eqb _ _); apply S; auto.
  - apply W. unfold find_authorities. apply JX_push; auto.
  - apply W. cbn [committee_rpcs fst]. apply JX_chase; auto.
  - unfold mgr_heartbeat. destruct (heartbeat_a _ _ _) as [s acts]. apply W. apply JX_discovery.
    eapply JX_expire; [|apply N.le_refl].
    assert (G : JX d n X now (apply_actions now acts (with_store s m))).
    { eapply JX_actions'; [|exact Ht]. apply (JX_vis d n X t m); [reflexivity|exact H]. }
    unfold prune_connected. destruct (_ =? 0)%nat; auto. apply JX_prune_loop; auto.
  - unfold poll. destruct (m_events m) as [|e l] eqn:E.
    + destruct (m_dials m) as [|[p addrs] l]; apply S; auto.
    + cbn [fst]. apply W. eapply JX_mono; [exact Ht|]. apply JX_poll; auto.
  - apply S; [reflexivity|lia].
Qed.
