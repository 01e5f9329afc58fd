(* The invariants of PeersProofs hold after every call, continued: penalties, heartbeat, pruning,
   forgiveness, and every history. *)
From Verif Require Import Util AMap PeersModel PeersSpec PeersProofs PeersProofs2 PeersProofs3.
Local Open Scope nat_scope.
Local Notation ieq := ident_eqb_eq.
Local Notation neq := N.eqb_eq.

(* ---------- penalties ---------- *)
Lemma penalty_keys c pen ex r : let r' := apply_penalty c pen ex r in
  p_net r' = p_net r /\ p_bls r' = p_bls r /\ p_status r' = p_status r /\ p_ips r' = p_ips r /\ p_oper r' = p_oper r /\
  p_addr r' = p_addr r.
Proof. unfold apply_penalty. destruct ex; cbn; auto 10. Qed.
Lemma penalty_inv st ex c now p pen s : Inv st ex s -> Inv st ex (fst (process_penalty c now p pen s)).
Proof.
  intros HI. unfold process_penalty. destruct (rec_of (identity_for s p) s) as [r|] eqn:Hr; [|exact HI].
  destruct (penalty_keys c pen (trust_basis s (identity_for s p)) r) as [A [B [D [E _]]]].
  set (r' := apply_penalty c pen (trust_basis s (identity_for s p)) r) in *.
  assert (HI1 : Inv st ex (put_rec (identity_for s p) r' s)) by (eapply Inv_same; eauto).
  assert (Hi : identity_for (put_rec (identity_for s p) r' s) p = identity_for s p) by (apply ident_for_idx; reflexivity).
  destruct (rep_eqb _ _); [exact HI1|].
  destruct (rep c r').
  - exact HI1.
  - destruct (is_conn_or_dial (p_status r')) eqn:Ecd.
    + apply update_status_inv; auto. intros b Hb h x Hx. unfold get_peer in Hx. rewrite Hi, rec_put_same in Hx.
      assert (x = r') by congruence. subst x. unfold in_banned. destruct (p_status r'); auto; discriminate Ecd.
    + apply update_status_inv; auto. intros b Hb; discriminate Hb.
  - apply update_status_inv; auto. intros b Hb; discriminate Hb.
Qed.

(* ---------- rewriting every record without touching keys, status or addresses ---------- *)
Definition light (g : ident -> peer -> peer) : Prop := forall id r,
  p_net (g id r) = p_net r /\ p_bls (g id r) = p_bls r /\ p_status (g id r) = p_status r /\ p_ips (g id r) = p_ips r.
Definition mapP (g : ident -> peer -> peer) (P : list (ident * peer)) := map (fun e => (fst e, g (fst e) (snd e))) P.
Lemma mapP_get g P id : get ident_eqb id (mapP g P) = match get ident_eqb id P with Some r => Some (g id r) | None => None end.
Proof.
  induction P as [|[j r] P IH]; cbn; auto. destruct (ident_eqb id j) eqn:E; auto. apply ieq in E; subst; auto.
Qed.
Lemma mapP_fst g P : map fst (mapP g P) = map fst P.
Proof. unfold mapP. rewrite map_map. apply map_ext. reflexivity. Qed.
Lemma mapP_cnt g P f : (forall id r, f (g id r) = f r) -> cnt f (mapP g P) = cnt f P.
Proof.
  intros H. unfold cnt. induction P as [|[j r] P IH]; cbn; auto. rewrite H. destruct (f r); cbn; auto.
Qed.
Lemma Inv_mapP st ex g s : light g -> Inv st ex s -> Inv st ex (set_peers (mapP g (peers s)) s).
Proof.
  intros Hg [[Hn Hi Hc Hu Hp] C]. split.
  - cbn. unfold R, IX in *. constructor; unfold R, IX.
    + rewrite mapP_fst; auto.
    + intros p k. rewrite Hi, mapP_get. destruct (get ident_eqb (Confirmed k) (peers s)) as [r|].
      * destruct (Hg (Confirmed k) r) as [A _]. split; intros [x [Hx Hx']]; inversion Hx; subst; eexists; split; eauto; congruence.
      * split; intros [x [Hx _]]; discriminate Hx.
    + intros k x Hx. rewrite mapP_get in Hx. destruct (get ident_eqb (Confirmed k) (peers s)) as [r|] eqn:E; [|discriminate Hx].
      destruct (Hg (Confirmed k) r) as [A [B _]]. inversion Hx; subst. rewrite A, B. apply Hc; auto.
    + intros k x Hx. rewrite mapP_get in Hx. destruct (get ident_eqb (Unident k) (peers s)) as [r|] eqn:E; [|discriminate Hx].
      destruct (Hg (Unident k) r) as [A [B _]]. inversion Hx; subst. rewrite A, B. apply Hu; auto.
    + intros id x Hx. rewrite mapP_get in Hx. destruct (get ident_eqb id (peers s)) as [r|] eqn:E; [|discriminate Hx].
      destruct (Hg id r) as [_ [_ [_ A]]]. inversion Hx; subst. rewrite A. eapply Hp; eauto.
  - cbn. apply (CT_same _ _ _ _ _ _ _ C).
    + apply mapP_cnt. intros id r. destruct (Hg id r) as [_ [_ [A B]]]. unfold in_disconnected. rewrite A; auto.
    + apply mapP_cnt. intros id r. destruct (Hg id r) as [_ [_ [A B]]]. unfold in_banned. rewrite A; auto.
    + intros x. apply mapP_cnt. intros id r. destruct (Hg id r) as [_ [_ [A B]]]. unfold banned_seen_at, in_banned. rewrite A, B; auto.
Qed.
Lemma beat_eq c now s : beat c now s = set_peers (mapP (fun id r => fst (peer_heartbeat c now (exempt s id r) r)) (peers s)) s.
Proof. reflexivity. Qed.
Lemma hb_light c now f : light (fun id r => fst (peer_heartbeat c now (f id r) r)).
Proof. intros id r. unfold peer_heartbeat. destruct (f id r); cbn; auto. Qed.
Lemma beat_inv st ex c now s : Inv st ex s -> Inv st ex (beat c now s).
Proof. intros HI. rewrite beat_eq. apply Inv_mapP; auto. apply (hb_light c now (fun id r => exempt s id r)). Qed.
Lemma status_all_inv st ex c now ns l : (forall b, ns <> NDisconnecting b) -> forall s, Inv st ex s ->
  Inv st ex (status_all c now ns l s).
Proof.
  intros Hn. induction l as [|p l IH]; intros s HI; cbn; auto. apply IH. apply update_status_inv; auto.
  intros b Hb. exfalso. apply (Hn b); auto.
Qed.
Lemma heartbeat_inv st ex c now s : Inv st ex s -> Inv st ex (heartbeat c now s).
Proof.
  intros HI. unfold heartbeat. apply status_all_inv; [intros b H; discriminate H|]. apply beat_inv.
  apply status_all_inv; [intros b H; discriminate H|]. auto.
Qed.

(* ---------- pruning ---------- *)
Lemma heap_top_spec c h : match heap_top c h with
  | Some t => In t h /\ forall f, In f h -> (fst f <= fst t)%N
  | None => h = [] end.
Proof.
  induction h as [|e h IH]; cbn; auto. destruct (heap_top c h) as [f|].
  - destruct IH as [Hin Hmax]. unfold newer. destruct ((fst f <? fst e)%N || _) eqn:E.
    + split; auto. assert (fst f <= fst e)%N.
      { apply orb_true_iff in E as [E|E]; [apply N.ltb_lt in E; lia|].
        apply andb_true_iff in E as [E _]. apply N.eqb_eq in E. lia. }
      intros g [<-|Hg]; [lia|]. specialize (Hmax g Hg). lia.
    + split; auto. apply orb_false_iff in E as [E _]. apply N.ltb_ge in E.
      intros g [<-|Hg]; [lia|auto].
  - subst h. split; auto. intros g [<-|[]]. lia.
Qed.
Lemma entry_eqb_eq a b : entry_eqb a b = true <-> a = b.
Proof.
  destruct a as [x i], b as [y j]. unfold entry_eqb; cbn. rewrite andb_true_iff, N.eqb_eq, ieq.
  split; [intros [-> ->]; auto|intros H; inversion H; auto].
Qed.
Lemma remove_one_perm e h : In e h -> Permutation h (e :: remove_one e h).
Proof.
  induction h as [|f h IH]; cbn; [tauto|]. intros H. destruct (entry_eqb e f) eqn:E.
  - apply entry_eqb_eq in E; subst; auto.
  - destruct H as [H|H]; [subst; rewrite (proj2 (entry_eqb_eq e e) eq_refl) in E; discriminate E|].
    rewrite (IH H) at 1. apply perm_swap.
Qed.
(* the heap after some candidates: drawn from them, full up to the bound, the oldest *)
Record heap_ok (n : nat) (seen h : list (N * ident)) : Prop := mkHeap {
  h_sub : forall e, In e h -> In e seen;
  h_nd : NoDup (map snd h);
  h_len : length h = Nat.min n (length seen);
  h_old : forall e f, In e h -> In f seen -> ~ In f h -> (fst e <= fst f)%N }.
Lemma offer_ok c n seen h e : heap_ok n seen h -> ~ In (snd e) (map snd seen) ->
  heap_ok n (seen ++ [e]) (offer c n h e).
Proof.
  intros [Hs Hn Hl Ho] Hfresh.
  assert (Hne : ~ In (snd e) (map snd h)).
  { intros H. apply Hfresh. apply in_map_iff in H as [x [Hx Hin]]. rewrite <- Hx. apply in_map, Hs; auto. }
  unfold offer. destruct (length h <? n) eqn:El.
  - apply Nat.ltb_lt in El. assert (length h = length seen) by lia.
    assert (Hall : forall f, In f seen -> In f h).
    { intros f Hf. assert (Hi : incl seen h).
      { apply NoDup_length_incl; [apply (NoDup_map_inv snd); auto|lia|intros x Hx; auto]. }
      auto. }
    constructor; cbn.
    + intros x [<-|Hx]; apply in_or_app; [right; left; auto|left; auto].
    + constructor; auto.
    + rewrite app_length; cbn. lia.
    + intros x f Hx Hf Hnf. apply in_app_or in Hf as [Hf|[<-|[]]]; exfalso; apply Hnf; auto.
  - apply Nat.ltb_ge in El. pose proof (heap_top_spec c h) as HT. destruct (heap_top c h) as [t|].
    + destruct HT as [Htin Htmax]. destruct (fst e <? fst t)%N eqn:Elt.
      * apply N.ltb_lt in Elt. pose proof (remove_one_perm t h Htin) as HP.
        assert (Hin : forall x, In x (remove_one t h) -> In x h).
        { intros x Hx. eapply Permutation_in; [apply Permutation_sym, HP|right; auto]. }
        constructor.
        -- intros x [<-|Hx]; apply in_or_app; [right; left; auto|left; auto].
        -- cbn. constructor.
           ++ intros H. apply in_map_iff in H as [x [Hx H]]. apply Hne. rewrite <- Hx. apply in_map; auto.
           ++ assert (HN : NoDup (map snd (t :: remove_one t h))).
              { eapply Permutation_NoDup; [apply Permutation_map, HP|auto]. }
              inversion HN; auto.
        -- cbn. apply Permutation_length in HP. cbn in HP. rewrite app_length; cbn. lia.
        -- intros x f Hx Hf Hnf.
           assert (Hxt : (fst x <= fst t)%N) by (destruct Hx as [<-|Hx]; [lia|auto]).
           apply in_app_or in Hf as [Hf|[<-|[]]]; [|exfalso; apply Hnf; left; auto].
           destruct (entry_eqb f t) eqn:Eft.
           ++ apply entry_eqb_eq in Eft; subst f. auto.
           ++ assert (~ In f h) as Hfh.
              { intros H. eapply Permutation_in in H; [|exact HP]. destruct H as [H|H].
                - subst. rewrite (proj2 (entry_eqb_eq f f) eq_refl) in Eft; discriminate Eft.
                - apply Hnf. right; auto. }
              specialize (Ho t f Htin Hf Hfh). lia.
      * apply N.ltb_ge in Elt. constructor; auto.
        -- intros x Hx. apply in_or_app; auto.
        -- rewrite app_length; cbn. lia.
        -- intros x f Hx Hf Hnf. apply in_app_or in Hf as [Hf|[<-|[]]]; auto.
           specialize (Htmax x Hx). lia.
    + subst h. cbn in *. constructor; cbn; try tauto.
      rewrite app_length; cbn. lia.
Qed.
Lemma collect_go c n l : NoDup (map snd l) -> forall pre h, heap_ok n pre h -> (forall e, In e l -> ~ In (snd e) (map snd pre)) ->
  heap_ok n (pre ++ l) (fold_left (offer c n) l h).
Proof.
  induction l as [|e l IH]; intros Hd pre h Hh Hf; cbn.
  - rewrite app_nil_r; auto.
  - inversion Hd as [|? ? H1 H2]; subst.
    replace (pre ++ e :: l) with ((pre ++ [e]) ++ l) by (rewrite <- app_assoc; auto).
    apply IH; auto.
    + apply offer_ok; auto. apply Hf; left; auto.
    + intros x Hx. rewrite map_app, in_app_iff. intros [H|[H|[]]].
      * eapply Hf; [right; eauto|auto].
      * apply H1. cbn in H. rewrite H. apply in_map; auto.
Qed.

Lemma cands_in since s t id : NoDup (map fst (peers s)) ->
  In (t, id) (candidates since s) <-> exists r, rec_of id s = Some r /\ since (p_status r) = Some t.
Proof.
  intros Hn. unfold candidates, rec_of. rewrite in_flat_map. split.
  - intros [[j r] [Hin H]]. cbn in H. destruct (since (p_status r)) as [t'|] eqn:E; [|destruct H].
    destruct H as [H|[]]. inversion H; subst. exists r. split; auto. apply In_get; auto. apply ieq.
  - intros [r [Hr Hs]]. exists (id, r). split; [apply (get_In ident_eqb ieq); auto|]. cbn. rewrite Hs. left; auto.
Qed.
Lemma cands_nd since s : NoDup (map fst (peers s)) -> NoDup (map snd (candidates since s)).
Proof.
  unfold candidates. induction (peers s) as [|[j r] P IH]; cbn; [constructor|]. intros H; inversion H as [|? ? H1 H2]; subst.
  destruct (since (p_status r)); cbn; auto. constructor; auto.
  intros Hin. apply H1. apply in_map_iff in Hin as [[x y] [Hx Hin]]. cbn in Hx; subst y.
  apply in_flat_map in Hin as [[j' r'] [Hin H']]. cbn in H'. destruct (since (p_status r')); [|destruct H'].
  destruct H' as [H'|[]]. inversion H'; subst. apply (in_map fst) in Hin; auto.
Qed.
Lemma cands_len since s : length (candidates since s) = cnt (fun r => match since (p_status r) with Some _ => true | None => false end) (peers s).
Proof.
  unfold candidates, cnt. induction (peers s) as [|[j r] P IH]; cbn; auto.
  destruct (since (p_status r)); cbn; auto.
Qed.
Lemma collect_ok c n since s : NoDup (map fst (peers s)) -> heap_ok n (candidates since s) (collect c n since s).
Proof.
  intros Hn. unfold collect. apply (collect_go c n _ (cands_nd since s Hn) [] []).
  - constructor; cbn; try tauto; try lia. constructor.
  - intros e _ [].
Qed.

(* removing a set of records, each with its count *)
Definition drop_all (ids : list ident) (s : store) : store :=
  fold_left (fun t id => opt_release (rec_of id t) (fst (evict id t))) ids s.
Lemma drop_inv st ex ids : forall s, Inv st ex s -> Inv st ex (drop_all ids s).
Proof.
  induction ids as [|id ids IH]; intros s HI; cbn; auto. apply IH.
  destruct (rec_of id s) as [r|] eqn:E; cbn.
  - apply Inv_evict; auto.
  - rewrite (evict_none _ _ E). auto.
Qed.
Lemma drop_one_rec id j t : rec_of j (opt_release (rec_of id t) (fst (evict id t))) = if ident_eqb id j then None else rec_of j t.
Proof.
  destruct (rec_of id t) as [r|] eqn:E; cbn.
  - rewrite (evict_eq _ _ _ E). cbn [fst]. unfold rec_of. rewrite release_peers. cbn.
    destruct (ident_eqb id j) eqn:Ej.
    + apply ieq in Ej; subst. apply get_del_same.
    + apply get_del_other; [apply ieq|]. intros ->. rewrite (eqb_rf ident_eqb ieq) in Ej. discriminate Ej.
  - rewrite (evict_none _ _ E). cbn. destruct (ident_eqb id j) eqn:Ej; auto. apply ieq in Ej; subst; auto.
Qed.
Lemma drop_rec ids j : forall s, rec_of j (drop_all ids s) = if existsb (ident_eqb j) ids then None else rec_of j s.
Proof.
  induction ids as [|id ids IH]; intros s; cbn; auto.
  change (rec_of j (drop_all ids (opt_release (rec_of id s) (fst (evict id s)))) = if ident_eqb j id || existsb (ident_eqb j) ids then None else rec_of j s).
  rewrite IH, drop_one_rec.
  assert (E : ident_eqb id j = ident_eqb j id).
  { destruct (ident_eqb id j) eqn:E1, (ident_eqb j id) eqn:E2; auto.
    - apply ieq in E1; subst. rewrite (eqb_rf ident_eqb ieq) in E2; discriminate E2.
    - apply ieq in E2; subst. rewrite (eqb_rf ident_eqb ieq) in E1; discriminate E1. }
  rewrite E. destruct (ident_eqb j id), (existsb _ _); auto.
Qed.
Lemma drop_cnt f ids : NoDup ids -> forall s, NoDup (map fst (peers s)) ->
  (forall id, In id ids -> exists r, rec_of id s = Some r /\ f r = true) ->
  cnt f (peers (drop_all ids s)) = cnt f (peers s) - length ids.
Proof.
  induction ids as [|id ids IH]; intros Hd s Hn Hf; cbn; [lia|]. inversion Hd as [|? ? H1 H2]; subst.
  set (t := opt_release (rec_of id s) (fst (evict id s))).
  destruct (Hf id (or_introl eq_refl)) as [r [Hr Hfr]].
  assert (Ep : peers t = del ident_eqb id (peers s)).
  { unfold t. rewrite Hr, (evict_eq _ _ _ Hr). cbn [opt_release fst]. rewrite release_peers. auto. }
  change (cnt f (peers (drop_all ids t)) = cnt f (peers s) - S (length ids)).
  rewrite IH; auto.
  - rewrite Ep. pose proof (cnt_del ident_eqb ieq f _ _ _ Hn Hr) as H. rewrite Hfr in H. lia.
  - rewrite Ep. apply NoDup_del; auto.
  - intros j Hj. destruct (Hf j (or_intror Hj)) as [x [Hx Hfx]]. exists x. split; auto.
    unfold t. rewrite drop_one_rec. destruct (ident_eqb id j) eqn:E; auto. apply ieq in E; subst. contradiction.
Qed.

Lemma prune_banned_eq c s : NoDup (map fst (peers s)) ->
  prune_banned c s = drop_all (map snd (collect c (b_total s - c_max_banned c) banned_since s)) s.
Proof.
  intros Hn. unfold prune_banned, drop_all.
  pose proof (collect_ok c (b_total s - c_max_banned c) banned_since s Hn) as [Hs Hnd _ _].
  set (h := collect c (b_total s - c_max_banned c) banned_since s) in *.
  assert (Hrec : forall e, In e h -> exists r, rec_of (snd e) s = Some r /\ is_banned_st (p_status r) = true).
  { intros [t id] He. apply Hs in He. apply cands_in in He as [r [Hr Ht]]; auto. exists r. split; auto.
    destruct (p_status r); auto; discriminate Ht. }
  assert (G : forall l t, NoDup (map snd l) -> (forall e, In e l -> In e h /\ rec_of (snd e) t = rec_of (snd e) s) ->
     fold_left (fun t e => remove_banned (ips_of (snd e) s) (fst (evict (snd e) t))) l t =
     fold_left (fun t id => opt_release (rec_of id t) (fst (evict id t))) (map snd l) t).
  { induction l as [|e l IH]; intros t Hd Hl; cbn; auto. inversion Hd as [|? ? H1 H2]; subst.
    destruct (Hl e (or_introl eq_refl)) as [He Hre]. destruct (Hrec e He) as [r [Hr Hb]].
    assert (E : opt_release (rec_of (snd e) t) (fst (evict (snd e) t)) = remove_banned (ips_of (snd e) s) (fst (evict (snd e) t))).
    { rewrite Hre, Hr. unfold ips_of. rewrite Hr. cbn. unfold release. destruct (p_status r); auto; discriminate Hb. }
    rewrite E. apply IH; auto. intros x Hx. destruct (Hl x (or_intror Hx)) as [Hh Hxr]. split; auto.
    rewrite <- E, drop_one_rec. destruct (ident_eqb (snd e) (snd x)) eqn:Ex; auto.
    apply ieq in Ex. exfalso. apply H1. rewrite Ex. apply in_map; auto. }
  apply G; auto.
Qed.
Lemma prune_disc_eq c s : NoDup (map fst (peers s)) ->
  prune_disconnected c s = drop_all (map snd (collect c (disc s - c_max_disc c) disc_since s)) s.
Proof.
  intros Hn. unfold prune_disconnected, drop_all.
  pose proof (collect_ok c (disc s - c_max_disc c) disc_since s Hn) as [Hs Hnd _ _].
  set (h := collect c (disc s - c_max_disc c) disc_since s) in *.
  assert (Hrec : forall e, In e h -> exists r, rec_of (snd e) s = Some r /\ is_disc (p_status r) = true).
  { intros [t id] He. apply Hs in He. apply cands_in in He as [r [Hr Ht]]; auto. exists r. split; auto.
    destruct (p_status r); auto; discriminate Ht. }
  assert (G : forall l t, NoDup (map snd l) -> (forall e, In e l -> In e h /\ rec_of (snd e) t = rec_of (snd e) s) ->
     fold_left (fun t e => let t1 := fst (evict (snd e) t) in set_disc (disc t1 - 1) t1) l t =
     fold_left (fun t id => opt_release (rec_of id t) (fst (evict id t))) (map snd l) t).
  { induction l as [|e l IH]; intros t Hd Hl; cbn; auto. inversion Hd as [|? ? H1 H2]; subst.
    destruct (Hl e (or_introl eq_refl)) as [He Hre]. destruct (Hrec e He) as [r [Hr Hb]].
    assert (E : opt_release (rec_of (snd e) t) (fst (evict (snd e) t)) =
                set_disc (disc (fst (evict (snd e) t)) - 1) (fst (evict (snd e) t))).
    { rewrite Hre, Hr. cbn. unfold release. destruct (p_status r); auto; discriminate Hb. }
    rewrite E. apply IH; auto. intros x Hx. destruct (Hl x (or_intror Hx)) as [Hh Hxr]. split; auto.
    rewrite <- E, drop_one_rec. destruct (ident_eqb (snd e) (snd x)) eqn:Ex; auto.
    apply ieq in Ex. exfalso. apply H1. rewrite Ex. apply in_map; auto. }
  apply G; auto.
Qed.

(* ---------- forgiveness ---------- *)
Lemma rvi_inv s ips : Inv false false s -> Inv false false (remove_validator_ip ips s).
Proof.
  intros [W [Hd Hg He Hi Hx]]. split; cbn; auto. constructor; cbn; auto; intros; congruence.
Qed.
Lemma rvi_inv_st st s ips : Inv st false s -> Inv st false (remove_validator_ip ips s).
Proof.
  intros [W [Hd Hg He Hi Hx]]. split; cbn; auto. constructor; cbn; auto.
  - intros h x. specialize (Hi h x). rewrite del_ips_count. destruct (memN x ips); lia.
  - intros; congruence.
Qed.
Lemma made_id c now p s r : rec_of (identity_for s p) s = Some r -> made c now p s = s.
Proof. intros H. unfold made. rewrite H; auto. Qed.
Lemma forgive_inv st c now s k : Inv st false s -> Inv st false (forgive c now s k).
Proof.
  intros HI. unfold forgive. destruct (rec_of (Confirmed k) s) as [r0|] eqn:Hr; auto.
  destruct (p_net r0) as [p|] eqn:Hp; auto.
  assert (Hi : identity_for s p = Confirmed k).
  { assert (H : IX p (idx s) = Some k) by (apply (wf_idx _ _ (proj1 HI)); exists r0; auto).
    unfold identity_for, idx_of. unfold IX in H. rewrite H; auto. }
  rewrite (ensure_eq st false) by auto. cbn [fst].
  rewrite (made_id c now p s r0) by (rewrite Hi; auto).
  set (s2 := match p_status (made_rec c now p s) with
             | Disconnecting true | Banned _ => fst (update_status c now p NUnbanned s)
             | _ => s end).
  assert (H2 : Inv st false s2).
  { assert (HU : Inv st false (fst (update_status c now p NUnbanned s))).
    { apply update_status_inv; auto. intros b Hb; discriminate Hb. }
    unfold s2. destruct (p_status (made_rec c now p s)) as [| [|]| | | |]; auto. }
  destruct (rec_of (Confirmed k) s2) as [r|] eqn:Hr2; auto.
  apply rvi_inv_st. eapply Inv_same; eauto.
Qed.
Lemma forgives_inv st c now l : forall s, Inv st false s -> Inv st false (fold_left (forgive c now) l s).
Proof. induction l as [|k l IH]; intros s HI; cbn; auto. apply IH, forgive_inv; auto. Qed.

(* ---------- reordering ---------- *)
Lemma move_front_perm {A} i (l : list A) : Permutation l (move_front i l).
Proof.
  unfold move_front. destruct (nth_error l i) as [x|] eqn:E; auto.
  apply nth_error_split in E as [l1 [l2 [-> Hl]]].
  rewrite firstn_app, <- Hl, Nat.sub_diag, firstn_all. cbn [firstn]. rewrite app_nil_r.
  assert (E : skipn (S (length l1)) (l1 ++ x :: l2) = l2).
  { clear. induction l1 as [|y l1 IH]; cbn; auto. }
  rewrite E. apply Permutation_sym, Permutation_middle.
Qed.
Lemma Inv_perm st ex s P : Permutation (peers s) P -> Inv st ex s -> Inv st ex (set_peers P s).
Proof.
  intros HP [[Hn Hi Hc Hu Hp] C].
  assert (G : forall id, R id P = R id (peers s)).
  { intros id. symmetry. apply (get_perm ident_eqb ieq); auto. }
  split.
  - cbn. constructor.
    + eapply Permutation_NoDup; [apply Permutation_map; eauto|auto].
    + intros p k. rewrite G. apply Hi.
    + intros k r. rewrite G. apply Hc.
    + intros p r. rewrite G. apply Hu.
    + intros id r. rewrite G. apply Hp.
  - cbn. apply (CT_same _ _ _ _ _ _ _ C); [| |intros x]; symmetry; apply cnt_perm; auto.
Qed.

(* ---------- every event ---------- *)
Lemma prune_inv st ex c s : Inv st ex s -> Inv st ex (prune_banned c (prune_disconnected c s)).
Proof.
  intros HI. rewrite (prune_disc_eq c s) by apply HI.
  assert (H1 : Inv st ex (drop_all (map snd (collect c (disc s - c_max_disc c) disc_since s)) s)) by (apply drop_inv; auto).
  rewrite prune_banned_eq by apply H1. apply drop_inv; auto.
Qed.
Lemma step_inv st ex c s e : Inv st ex s -> (st || ex = true -> asks_ok s e) -> (ex = true -> forgives e = false) ->
  Inv st ex (step c s e).
Proof.
  intros HI Hok Hx.
  assert (Hnd : forall now p ns, (forall b, ns <> NDisconnecting b) -> Inv st ex (fst (update_status c now p ns s))).
  { intros now p ns H. apply update_status_inv; auto. intros b Hb. exfalso. apply (H b); auto. }
  assert (Hf : forgives e = true -> ex = false) by (intros H; destruct ex; auto; rewrite Hx in H; auto).
  destruct e as [now p a inc|now p|now p|now p|now p pen|now k p|now k p addrs|now k|now a b d|now l|now|i]; cbn [step].
  - destruct (peer_banned c s p); auto. apply Hnd. congruence.
  - apply Hnd. congruence.
  - apply update_status_inv; auto. intros b Hb h r Hr. specialize (Hok h). cbn in Hok. rewrite Hr in Hok. auto.
  - unfold register_disconnected. pose proof (Hnd now p NDisconnected ltac:(congruence)) as H.
    destruct (update_status c now p NDisconnected s) as [s1 a]. cbn [fst] in *. apply prune_inv; auto.
  - apply penalty_inv; auto.
  - apply add_trusted_inv; auto.
  - apply upsert_inv; auto.
  - specialize (Hf eq_refl). subst ex. unfold membership. destruct (in_slots s k); auto. apply forgive_inv; auto.
  - specialize (Hf eq_refl). subst ex. unfold update_committees. apply forgives_inv. exact HI.
  - specialize (Hf eq_refl). subst ex. unfold mark_for_dial. apply forgives_inv. exact HI.
  - apply heartbeat_inv; auto.
  - apply Inv_perm; auto. apply move_front_perm.
Qed.
Lemma Inv_empty st ex : Inv st ex empty_store.
Proof.
  split; constructor; cbn; auto; try (intros; congruence).
  - constructor.
  - intros p k. split; [congruence|]. intros [r [H _]]. discriminate H.
Qed.
Lemma run_inv c l : forall s, Inv false false s -> Inv false false (run c l s).
Proof.
  induction l as [|e l IH]; intros s HI; cbn; auto. apply IH. apply step_inv; auto; cbn; congruence.
Qed.
Lemma run_orderly st ex c l : forall s, Inv st ex s -> orderly c s l -> (ex = true -> forallb (fun e => negb (forgives e)) l = true) ->
  Inv st ex (run c l s).
Proof.
  induction l as [|e l IH]; intros s HI Ho Hx; cbn; auto. destruct Ho as [H1 H2]. apply IH; auto.
  - apply step_inv; auto. intros h. specialize (Hx h). cbn in Hx. apply andb_true_iff in Hx as [Hx _]. apply negb_true_iff in Hx; auto.
  - intros h. specialize (Hx h). cbn in Hx. apply andb_true_iff in Hx as [_ Hx]. auto.
Qed.
