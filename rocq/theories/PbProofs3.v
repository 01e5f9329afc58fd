From Verif Require Import Util PbModel PbSpec PbProofs1 PbProofs2.
Local Open Scope N_scope.

Section Flat.
Context {A B : Type} (f : A -> list B).
Lemma flat_same H h g x : NoDup (flat_map f H) -> In h H -> In g H -> In x (f h) -> In x (f g) -> h = g.
Proof.
  induction H as [|a H IH]; cbn; intros ND Hh Hg X Y; [contradiction|].
  apply NoDup_app_elim in ND. destruct ND as (N1 & N2 & N3).
  destruct Hh as [<-|Hh]; destruct Hg as [<-|Hg]; [reflexivity| | |exact (IH N2 Hh Hg X Y)].
  - exfalso. apply (N3 x X). apply in_flat_map. exists g. split; assumption.
  - exfalso. apply (N3 x Y). apply in_flat_map. exists h. split; assumption.
Qed.
Lemma flat_sub H D : NoDup (flat_map f H) -> NoDup D -> incl D H -> NoDup (flat_map f D).
Proof.
  intros ND. induction D as [|a D IH]; intros HD I; cbn; [constructor|].
  inversion HD as [|? ? Na HD']; subst.
  assert (ID : incl D H) by (intros x X; apply I; right; exact X).
  apply NoDup_app_intro.
  - assert (Ia : In a H) by (apply I; left; reflexivity).
    clear - ND Ia. induction H as [|b H IH]; [contradiction|]. cbn in ND. apply NoDup_app_elim in ND.
    destruct ND as (N1 & N2 & _). destruct Ia as [->|Ia]; [exact N1|exact (IH N2 Ia)].
  - exact (IH HD' ID).
  - intros x X Y. apply in_flat_map in Y as (g & Y & Z).
    assert (a = g) as -> by (apply (flat_same H a g x ND); [apply I; left; reflexivity|apply ID; exact Y|exact X|exact Z]).
    contradiction.
Qed.
Lemma flat_perm H H' : Permutation H H' -> Permutation (flat_map f H) (flat_map f H').
Proof. apply Permutation_flat_map. Qed.
End Flat.

Definition hk (h : bhdr) : list N := keys (bh_payload h).
Lemma bhdr_eq_dec (a b : bhdr) : {a = b} + {a <> b}.
Proof.
  assert (forall x y : bcert, {x = y} + {x <> y}).
  { decide equality; try apply N.eq_dec. apply list_eq_dec, N.eq_dec. }
  assert (forall x y : pdig, {x = y} + {x <> y}) by (decide equality; apply N.eq_dec).
  decide equality; try apply N.eq_dec; apply list_eq_dec; assumption.
Qed.
Lemma keys_flat l : keys (flat_map bh_payload l) = flat_map hk l.
Proof. unfold hk, keys. induction l as [|h l IH]; cbn; [reflexivity|]. rewrite map_app. f_equal. exact IH. Qed.
Lemma keys_flat_tm (m : tmap) : keys (flat_map (fun x => bh_payload (snd x)) m) = flat_map hk (map snd m).
Proof. unfold hk, keys. induction m as [|h l IH]; cbn; [reflexivity|]. rewrite map_app. f_equal. exact IH. Qed.

Record inv2 (c : bcfg) (rec : list N) (s : bst) (H : list bhdr) : Prop := {
  k_has : forall h, has s h \/ b_store s = Some h \/ In h (b_done s) -> In h H;
  k_ep : forall h, In h H -> bh_epoch h = c_epoch c;
  k_pos : forall h, In h H -> 0 < bh_round h;
  k_low : forall h, In h H -> bh_round h <= b_round s \/ b_store s = Some h;
  k_rnd : forall h g, In h H -> In g H -> bh_round h = bh_round g -> h = g;
  k_nd : NoDup H;
  k_keys : NoDup (keys (b_queue s) ++ flat_map hk H);
  k_seen : incl (keys (b_queue s) ++ flat_map hk H) (keys (b_acked s) ++ rec);
  k_store : forall h, (exists r, In (r, h) (b_tracked s)) \/ b_pend s = Some (h, true) \/ In h (b_done s) ->
            exists l, b_store s = Some l /\ bh_round h <= bh_round l;
  k_dis : forall r h, In (r, h) (b_tracked s) -> ~ In h (b_done s);
  k_dnd : NoDup (b_done s);
  k_pend : forall h b, b_pend s = Some (h, b) -> b_store s = Some h \/ forall r, ~ In (r, h) (b_tracked s)
}.

Lemma inv2_same c rec s s' H : inv2 c rec s H -> b_tracked s' = b_tracked s -> b_pend s' = b_pend s ->
  b_store s' = b_store s -> b_done s' = b_done s -> b_queue s' = b_queue s -> b_acked s' = b_acked s ->
  b_round s <= b_round s' -> inv2 c rec s' H.
Proof.
  intros I E1 E2 E3 E4 E5 E6 E7. destruct I as [i1 i2 i3 i4 i5 i6 i7 i8 i9 i10 i11 i12]. constructor; unfold has in *; rewrite ?E1, ?E2, ?E3, ?E4, ?E5, ?E6; try assumption.
  intros h X. destruct (i4 h X); [left; lia|right; assumption].
Qed.
Lemma store_dec c rec s H h l : inv2 c rec s H -> In h H -> b_store s = Some l -> bh_round h = bh_round l -> h = l.
Proof. intros I X Y R. apply (k_rnd _ _ _ _ I); [exact X|apply (k_has _ _ _ _ I); right; left; exact Y|exact R]. Qed.

Lemma inv2_pre c rec s e H : b_dead s = false -> inv1 c s -> inv2 c rec s H ->
  (forall h b, b_pend s = Some (h, b) -> ~ In h (b_done s)) ->
  fresh_digest rec s e ->
  (match e with BReport _ rs => forall r, In r rs -> exists h, In (r, h) (b_tracked s) | _ => True end) ->
  exists H', inv2 c rec (pre c s e) H'.
Proof.
  intros _ I1 I Pd Fr Cm. destruct e as [d w|cs q|cr rs| | | | | |v|f]; cbn [pre].
  - exists H. destruct I as [i1 i2 i3 i4 i5 i6 i7 i8 i9 i10 i11 i12]. constructor; cbn [b_queue b_acked b_round b_store b_tracked b_pend b_done set_q]; try assumption.
    + cbn in Fr. unfold keys in *. rewrite map_app. cbn [map fst].
      apply (Permutation_NoDup (l := d :: (map fst (b_queue s) ++ flat_map hk H))).
      * rewrite <- app_assoc. cbn. apply Permutation_middle.
      * constructor; [|exact i7]. intros X. apply i8 in X. apply in_app_iff in X. tauto.
    + intros x X. unfold keys in *. rewrite map_app in *. cbn [map fst] in *. rewrite !in_app_iff in *.
      destruct X as [[X|X]|X]; [|left; right; exact X|].
      * assert (Y : In x (map fst (b_acked s) ++ rec)) by (apply i8, in_app_iff; left; exact X).
        apply in_app_iff in Y. tauto.
      * assert (Y : In x (map fst (b_acked s) ++ rec)) by (apply i8, in_app_iff; right; exact X).
        apply in_app_iff in Y. tauto.
  - destruct (parents_shape c cs q s) as (r & pr & ps & l & a & -> & L & _). exists H.
    apply (inv2_same c rec s); try reflexivity; [exact I|exact L].
  - pose proof (i_sorted _ _ I1) as Srt. rewrite process_committed_eq by exact Srt.
    set (mx := fold_left N.max rs 0).
    set (gu := map snd (given_up rs (b_tracked s))).
    set (H' := filter (fun h => if in_dec bhdr_eq_dec h gu then false else true) H).
    assert (Ht : forall r h, In (r, h) (b_tracked s) -> In h H /\ bh_round h = r).
    { intros r h X. split; [apply (k_has _ _ _ _ I); left; left; exists r; exact X|apply (i_round _ _ I1 _ _ X)]. }
    assert (Hgu : forall g, In g gu <-> In (bh_round g, g) (b_tracked s) /\ ~ In (bh_round g) rs /\ bh_round g <= mx).
    { intros g. unfold gu, given_up. rewrite in_map_iff. split.
      - intros ([r h] & E & X). cbn in E; subst h. apply filter_In in X as [X Y]. cbn [fst] in Y.
        apply andb_true_iff in Y as [Y Z]. apply negb_true_iff, memN_nIn in Y. apply N.leb_le in Z.
        destruct (Ht r g X) as [_ E]. subst r. auto.
      - intros (X & Y & Z). exists (bh_round g, g). split; [reflexivity|]. apply filter_In. split; [exact X|].
        cbn [fst]. apply andb_true_iff. split; [apply negb_true_iff, memN_nIn; exact Y|apply N.leb_le; exact Z]. }
    assert (Gs : forall g, In g gu -> b_store s <> Some g).
    { intros g X Y. apply Hgu in X as (X & Z & L). destruct (Ht _ _ X) as [Hg _].
      destruct (fold_max_in rs 0) as [M|M]; fold mx in M.
      - pose proof (k_pos _ _ _ _ I g Hg). lia.
      - destruct (Cm mx M) as (m & Hm). destruct (Ht _ _ Hm) as [_ Em].
        destruct (k_store _ _ _ _ I m (or_introl (ex_intro _ mx Hm))) as (l & El & Ll).
        assert (l = g) as -> by congruence. assert (bh_round g = mx) as E by lia. rewrite E in Z. contradiction. }
    assert (Gp : forall g b, In g gu -> b_pend s <> Some (g, b)).
    { intros g b X Y. destruct (k_pend _ _ _ _ I g b Y) as [Z|Z]; [exact (Gs g X Z)|].
      apply Hgu in X. apply (Z (bh_round g)). apply X. }
    assert (Gd : forall g, In g gu -> ~ In g (b_done s)).
    { intros g X. apply Hgu in X. apply (k_dis _ _ _ _ I (bh_round g)). apply X. }
    assert (Dn : forall h, In h (snd (take_done rs (b_tracked s, b_done s))) <->
                 In h (b_done s) \/ (exists r, In r rs /\ In (r, h) (b_tracked s))).
    { intros h. apply take_done_In. exact Srt. }
    assert (Sh : forall r h, In (r, h) (still rs (b_tracked s)) -> In (r, h) (b_tracked s) /\ ~ In r rs /\ mx < r).
    { intros r h X. unfold still in X. apply filter_In in X as [X Y]. cbn [fst] in Y. apply andb_true_iff in Y as [Y Z].
      apply negb_true_iff, memN_nIn in Y. apply N.ltb_lt in Z. auto. }
    assert (HH' : forall h, In h H' <-> In h H /\ ~ In h gu).
    { intros h. unfold H'. rewrite filter_In. destruct (in_dec bhdr_eq_dec h gu) as [X|X]; intuition congruence. }
    assert (Ngu : NoDup gu).
    { unfold gu, given_up. apply NoDup_map_intro.
      - apply NoDup_filter'. apply (NoDup_map_inv fst). apply bm_NoDup. exact Srt.
      - intros [r h] [r' h'] X Y E. cbn in E. subst h'. apply filter_In in X as [X _]. apply filter_In in Y as [Y _].
        destruct (Ht _ _ X) as [_ <-]. destruct (Ht _ _ Y) as [_ <-]. reflexivity. }
    assert (Pm : Permutation H (gu ++ H')).
    { apply NoDup_Permutation; [apply I| |].
      - apply NoDup_app_intro; [exact Ngu|apply NoDup_filter', (k_nd _ _ _ _ I)|].
        intros x X Y. apply HH' in Y. tauto.
      - intros x. rewrite in_app_iff, HH'. destruct (in_dec bhdr_eq_dec x gu) as [X|X]; [|tauto].
        split; [tauto|]. intros _. apply Hgu in X as [X _]. apply (Ht _ _ X). }
    assert (Pk : Permutation (keys (b_queue s) ++ flat_map hk H)
                   (keys (flat_map (fun x => bh_payload (snd x)) (given_up rs (b_tracked s)) ++ b_queue s) ++ flat_map hk H')).
    { unfold keys at 2. rewrite map_app. fold (keys (flat_map (fun x => bh_payload (snd x)) (given_up rs (b_tracked s)))).
      rewrite keys_flat_tm. fold gu. fold (keys (b_queue s)).
      rewrite (flat_perm hk _ _ Pm), flat_map_app. rewrite !app_assoc. apply Permutation_app_tail. apply Permutation_app_comm. }
    exists H'. destruct I as [i1 i2 i3 i4 i5 i6 i7 i8 i9 i10 i11 i12]. constructor; cbn [b_queue b_acked b_round b_store b_tracked b_pend b_done set_tracked].
    + intros h X. apply HH'. destruct X as [[(r & X)|(b & X)]|[X|X]].
      * cbn [b_tracked set_tracked] in X. apply Sh in X as (X & Y & Z). destruct (Ht _ _ X) as [Y' E]. split; [exact Y'|].
        intros G. apply Hgu in G. subst r. lia.
      * cbn [b_pend set_tracked] in X. split; [apply i1; left; right; exists b; exact X|]. intros G. exact (Gp h b G X).
      * split; [apply i1; right; left; exact X|]. intros G. exact (Gs h G X).
      * apply Dn in X. destruct X as [X|(r & X & Y)].
        { split; [apply i1; right; right; exact X|]. intros G. exact (Gd h G X). }
        { destruct (Ht _ _ Y) as [Z E]. split; [exact Z|]. intros G. apply Hgu in G. subst r. tauto. }
    + intros h X. apply HH' in X. apply i2, X.
    + intros h X. apply HH' in X. apply i3, X.
    + intros h X. apply HH' in X. apply i4, X.
    + intros h g X Y. apply HH' in X. apply HH' in Y. apply i5; tauto.
    + apply NoDup_filter'. exact i6.
    + apply (Permutation_NoDup Pk). exact i7.
    + intros x X. apply i8. apply (Permutation_in x (Permutation_sym Pk)). exact X.
    + intros h [(r & X)|[X|X]]; [apply i9; left; exists r; apply Sh in X; apply X|apply i9; right; left; exact X|].
      apply Dn in X. destruct X as [X|(r & X & Y)]; apply i9; [right; right; exact X|left; exists r; exact Y].
    + intros r h X Y. apply Sh in X as (X & Z & L). apply Dn in Y. destruct Y as [Y|(r' & Y & W)].
      * exact (i10 r h X Y).
      * destruct (Ht _ _ X) as [_ E]. destruct (Ht _ _ W) as [_ E']. subst. contradiction.
    + (* done stays without repetition *)
      assert (G : forall l m dn, bm_sorted m -> (forall r h, In (r, h) m -> bh_round h = r) ->
                  (forall r h, In (r, h) m -> ~ In h dn) -> NoDup dn -> NoDup (snd (take_done l (m, dn)))).
      { clear. induction l as [|r l IH]; intros m dn Hs Hr Hd ND; cbn; [exact ND|].
        unfold take_done in IH. apply IH.
        - apply tm_remove_sorted. exact Hs.
        - intros r' h X. apply in_tm_remove in X. apply Hr, X.
        - intros r' h X. apply in_tm_remove in X as [X E]. cbn in E. destruct (tm_get r m) as [g|] eqn:G; [|exact (Hd _ _ X)].
          intros Y. apply in_app_iff in Y as [Y|[<-|[]]]; [exact (Hd _ _ X Y)|].
          apply tm_get_In in G; [|exact Hs]. apply Hr in G. apply Hr in X. congruence.
        - destruct (tm_get r m) as [g|] eqn:G; [|exact ND]. apply tm_get_In in G; [|exact Hs].
          apply NoDup_app_intro; [exact ND|constructor; [intros []|constructor]|].
          intros x X [<-|[]]. exact (Hd _ _ G X). }
      apply G; [exact Srt|apply I1|exact i10|exact i11].
    + intros h b X. destruct (i12 h b X) as [Y|Y]; [left; exact Y|]. right. intros r Z. apply Sh in Z. apply (Y r). apply Z.
  - unfold write_record. destruct (b_pend s) as [[h [|]]|] eqn:P; try (exists H; exact I).
    assert (Hh : In h H) by (apply (k_has _ _ _ _ I); left; right; exists false; exact P).
    assert (St : (supersedes h (b_store s) = true /\ (forall l, b_store s = Some l -> bh_round l <= bh_round h))
                 \/ (supersedes h (b_store s) = false /\ exists l, b_store s = Some l /\ bh_round h < bh_round l)).
    { unfold supersedes. destruct (b_store s) as [l|] eqn:S; [|left; split; [reflexivity|intros l X; discriminate X]].
      assert (Hl : In l H) by (apply (k_has _ _ _ _ I); right; left; exact S).
      rewrite (k_ep _ _ _ _ I l Hl), (k_ep _ _ _ _ I h Hh), N.eqb_refl. cbn.
      destruct (N.leb_spec (bh_round l) (bh_round h)) as [L|L].
      - left. split; [reflexivity|]. intros l' X. injection X as <-. exact L.
      - right. split; [reflexivity|]. exists l. auto. }
    exists H. destruct I as [i1 i2 i3 i4 i5 i6 i7 i8 i9 i10 i11 i12].
    destruct St as [[-> St]|[-> (l & Sl & St)]]; constructor; cbn [b_queue b_acked b_round b_store b_tracked b_pend b_done]; try assumption.
    + intros g [[X|(b & X)]|[X|X]].
      * apply i1. left. left. exact X.
      * cbn [b_pend] in X. injection X as <- _. exact Hh.
      * injection X as <-. exact Hh.
      * apply i1. right. right. exact X.
    + intros g X. destruct (i4 g X) as [L|L]; [left; exact L|]. specialize (St g L).
      destruct (i4 h Hh) as [L'|L']; [left; lia|]. right. congruence.
    + intros g X. exists h. split; [reflexivity|].
      assert (Y : (exists r, In (r, g) (b_tracked s)) \/ g = h \/ In g (b_done s)).
      { destruct X as [X|[X|X]]; [left; exact X|right; left; congruence|right; right; exact X]. }
      destruct Y as [Y|[->|Y]]; [|lia|].
      * destruct (i9 g (or_introl Y)) as (l & L1 & L2). specialize (St l L1). lia.
      * destruct (i9 g (or_intror (or_intror Y))) as (l & L1 & L2). specialize (St l L1). lia.
    + intros g b X. injection X as <- _. left. reflexivity.
    + intros g [[X|(b & X)]|[X|X]].
      * apply i1. left. left. exact X.
      * cbn [b_pend] in X. injection X as <- _. exact Hh.
      * apply i1. right. left. exact X.
      * apply i1. right. right. exact X.
    + intros g X.
      assert (Y : (exists r, In (r, g) (b_tracked s)) \/ g = h \/ In g (b_done s)).
      { destruct X as [X|[X|X]]; [left; exact X|right; left; congruence|right; right; exact X]. }
      destruct Y as [Y|[->|Y]]; [apply i9; left; exact Y|exists l; split; [exact Sl|lia]|apply i9; right; right; exact Y].
    + intros g b X. injection X as <- _. destruct (i12 h false P) as [Y|Y]; [left; exact Y|right; exact Y].
  - unfold task_done. destruct (b_pend s) as [[h [|]]|] eqn:P; try (exists H; exact I).
    assert (Srt : bm_sorted (b_tracked s)) by apply I1.
    assert (Hh : In h H) by (apply (k_has _ _ _ _ I); left; right; exists true; exact P).
    assert (Ht : forall y, In y (tm_insert (bh_round h) h (b_tracked s)) -> y = (bh_round h, h) \/ In y (b_tracked s)).
    { intros y X. apply (in_tm_insert (bh_round h) h (b_tracked s) y Srt) in X. tauto. }
    exists H. destruct I as [i1 i2 i3 i4 i5 i6 i7 i8 i9 i10 i11 i12]. constructor; cbn [b_queue b_acked b_round b_store b_tracked b_pend b_done]; try assumption.
    + intros g [[(r & X)|(b & X)]|[X|X]].
      * cbn [b_tracked] in X. apply Ht in X as [X|X]; [injection X as _ ->; exact Hh|apply i1; left; left; exists r; exact X].
      * discriminate X.
      * apply i1. right. left. exact X.
      * apply i1. right. right. exact X.
    + intros g [(r & X)|[X|X]]; [|discriminate X|apply i9; right; right; exact X].
      apply Ht in X as [X|X]; [injection X as _ ->; apply i9; right; left; exact P|apply i9; left; exists r; exact X].
    + intros r g X. apply Ht in X as [X|X]; [injection X as _ ->; exact (Pd h true eq_refl)|exact (i10 r g X)].
    + intros g b X. discriminate X.
  - destruct (b_pend s) as [p|] eqn:P; [|exists H; exact I].
    exists H. destruct I as [i1 i2 i3 i4 i5 i6 i7 i8 i9 i10 i11 i12]. constructor; cbn [b_queue b_acked b_round b_store b_tracked b_pend b_done fail]; try assumption.
    + intros g [[X|(b & X)]|[X|X]]; [|discriminate X| |].
      * apply i1. left. left. exact X.
      * apply i1. right. left. exact X.
      * apply i1. right. right. exact X.
    + intros g [X|[X|X]]; [apply i9; left; exact X|discriminate X|apply i9; right; right; exact X].
    + intros g b X. discriminate X.
  - exists H. apply (inv2_same c rec s); try reflexivity; exact I.
  - exists H. apply (inv2_same c rec s); try reflexivity; exact I.
  - exists H. apply (inv2_same c rec s); try reflexivity; exact I.
  - exists H. apply (inv2_same c rec s); try reflexivity; exact I.
Qed.

Lemma inv2_tail c rec s s' H : tail_case c s s' -> inv2 c rec s H -> exists H', inv2 c rec s' H'.
Proof.
  intros T I. destruct T as [|P Q NM|h P Q S R He|h P S M].
  - exists H. exact I.
  - pose proof (next_round_gt s) as Lt.
    assert (Nw : forall g, In g H -> bh_round g <> next_round s).
    { intros g X E. destruct (k_low _ _ _ _ I g X) as [L|L]; [lia|]. exact (NM g L (k_ep _ _ _ _ I g X) E). }
    set (k := Nat.min (length (b_queue s)) (c_max c)).
    destruct I as [i1 i2 i3 i4 i5 i6 i7 i8 i9 i10 i11 i12].
    assert (Pay : hk (new_header c s) = keys (firstn k (b_queue s))).
    { unfold hk, new_header. cbn [bh_payload]. fold k. rewrite im_collect_nodup; [reflexivity|].
      apply NoDup_app_elim in i7. destruct i7 as (N1 & _). rewrite <- (firstn_skipn k (b_queue s)) in N1.
      unfold keys in N1. rewrite map_app in N1. apply NoDup_app_elim in N1. apply N1. }
    assert (Pm : Permutation (keys (b_queue s) ++ flat_map hk H)
                             (keys (skipn k (b_queue s)) ++ flat_map hk (new_header c s :: H))).
    { cbn [flat_map]. rewrite Pay. rewrite <- (firstn_skipn k (b_queue s)) at 1. unfold keys. rewrite map_app.
      rewrite app_assoc. apply Permutation_app_tail. apply Permutation_app_comm. }
    exists (new_header c s :: H). constructor; cbn [b_queue b_acked b_round b_store b_tracked b_pend b_done do_new].
    + intros g [[X|(b & X)]|[X|X]].
      * right. apply i1. left. left. exact X.
      * cbn in X. injection X as <- _. left. reflexivity.
      * right. apply i1. right. left. exact X.
      * right. apply i1. right. right. exact X.
    + intros g [<-|X]; [reflexivity|exact (i2 g X)].
    + intros g [<-|X]; [cbn; lia|exact (i3 g X)].
    + intros g [<-|X]; [left; cbn; lia|]. destruct (i4 g X); [left; lia|right; assumption].
    + intros a b [<-|X] [<-|Y] E; [reflexivity| | |exact (i5 a b X Y E)].
      * exfalso. apply (Nw b Y). symmetry. exact E.
      * exfalso. apply (Nw a X). exact E.
    + constructor; [|exact i6]. intros X. exact (Nw _ X eq_refl).
    + apply (Permutation_NoDup Pm). exact i7.
    + intros x X. apply i8. apply (Permutation_in x (Permutation_sym Pm)). exact X.
    + intros g [X|[X|X]]; [apply i9; left; exact X|discriminate X|apply i9; right; right; exact X].
    + exact i10.
    + exact i11.
    + intros g b X. injection X as <- _. right. intros r Y. apply (Nw (new_header c s)); [|reflexivity].
      apply i1. left. left. exists r. exact Y.
  - pose proof (next_round_gt s) as Lt. exists H. destruct I as [i1 i2 i3 i4 i5 i6 i7 i8 i9 i10 i11 i12].
    constructor; cbn [b_queue b_acked b_round b_store b_tracked b_pend b_done do_again]; try assumption.
    + intros g [[X|(b & X)]|[X|X]].
      * apply i1. left. left. exact X.
      * cbn in X. injection X as <- _. apply i1. right. left. exact S.
      * apply i1. right. left. exact X.
      * apply i1. right. right. exact X.
    + intros g X. destruct (i4 g X); [left; lia|right; assumption].
    + intros g [X|[X|X]]; [apply i9; left; exact X|discriminate X|apply i9; right; right; exact X].
    + intros g b X. injection X as <- _. left. exact S.
  - exists H. destruct I as [i1 i2 i3 i4 i5 i6 i7 i8 i9 i10 i11 i12].
    constructor; cbn [b_queue b_acked b_round b_store b_tracked b_pend b_done do_resend]; try assumption.
    + intros g [[X|(b & X)]|[X|X]].
      * apply i1. left. left. exact X.
      * cbn in X. injection X as <- _. apply i1. right. left. exact S.
      * apply i1. right. left. exact X.
      * apply i1. right. right. exact X.
    + intros g [X|[X|X]]; [apply i9; left; exact X|discriminate X|apply i9; right; right; exact X].
    + intros g b X. injection X as <- _. left. exact S.
Qed.

Definition inv3 (c : bcfg) (rec : list N) (s : bst) : Prop :=
  inv1 c s /\ (exists H, inv2 c rec s H) /\ (forall h b, b_pend s = Some (h, b) -> ~ In h (b_done s)).
Lemma inv3_step c rec s e : inv3 c rec s -> fresh_digest rec s e -> calm c s e -> inv3 c rec (bstep c s e).
Proof.
  intros (I1 & (H & I2) & Pd) Fr [Cm Cp]. split; [apply inv1_step; exact I1|]. split; [|exact Cp].
  destruct (b_dead s) eqn:D; [rewrite step_dead by exact D; exists H; exact I2|].
  destruct (inv2_pre c rec s e H D I1 I2 Pd Fr Cm) as (H' & I').
  exact (inv2_tail c rec _ _ H' (step_case c s e D) I').
Qed.
Lemma inv3_run c rec evs : forall s, inv3 c rec s ->
  along_b (fun s e => fresh_digest rec s e /\ calm c s e) c s evs -> inv3 c rec (brun c s evs).
Proof.
  induction evs as [|e evs IH]; intros s I A; [exact I|].
  cbn in A. destruct A as [[Fr Cm] A]. cbn. apply IH; [|exact A]. apply inv3_step; assumption.
Qed.
Lemma inv3_init c prim st sch :
  (forall h, st = Some h -> bh_epoch h = c_epoch c /\ 0 < bh_round h /\ NoDup (keys (bh_payload h))) ->
  inv3 c (rec_keys st) (b_new c prim st sch).
Proof.
  intros Hs. split; [apply inv1_init|]. split; [|intros h b X; discriminate X].
  exists (match st with Some h => [h] | None => [] end).
  assert (Hl : forall h, In h (match st with Some h => [h] | None => [] end) <-> st = Some h).
  { intros h. destruct st as [g|]; cbn; [|intuition congruence]. split; [intros [<-|[]]; reflexivity|intros X; injection X as <-; left; reflexivity]. }
  constructor; cbn [b_queue b_acked b_round b_store b_tracked b_pend b_done b_new keys map app].
  - intros h [[(r & [])|(b & X)]|[X|[]]]; [discriminate X|]. apply Hl. exact X.
  - intros h X. apply Hs. apply Hl. exact X.
  - intros h X. apply Hs. apply Hl. exact X.
  - intros h X. right. apply Hl. exact X.
  - intros h g X Y _. apply Hl in X. apply Hl in Y. congruence.
  - destruct st; [constructor; [intros []|constructor]|constructor].
  - destruct st as [h|]; cbn; [rewrite app_nil_r; apply (Hs h eq_refl)|constructor].
  - destruct st as [h|]; cbn; [rewrite app_nil_r; apply incl_refl|intros x []].
  - intros h [(r & [])|[X|[]]]. discriminate X.
  - intros r h [].
  - constructor.
  - intros h b X. discriminate X.
Qed.
