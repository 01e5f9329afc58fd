(* Proofs for C21 and C22, part 1: the pending-certificate bookkeeping. *)
From Verif Require Import Util Types CommitteeModel CertModel SyncModel SyncSpec.
Local Open Scope N_scope.

Section AssocLemmas.
Context {K V : Type}.
Variable eqb : K -> K -> bool.
Hypothesis eqb_ok : forall a b, eqb a b = true <-> a = b.
Implicit Types (m : list (K * V)).

Lemma eqb_refl' a : eqb a a = true. Proof. apply eqb_ok. reflexivity. Qed.
Lemma a_get_del_same k m : a_get eqb k (a_del eqb k m) = None.
Proof.
  induction m as [|[k' v] m IH]; [reflexivity|]. cbn. destruct (eqb k k') eqn:E; cbn; [exact IH|]. rewrite E. exact IH.
Qed.
Lemma a_get_del_other k k' m : k <> k' -> a_get eqb k (a_del eqb k' m) = a_get eqb k m.
Proof.
  intros N. induction m as [|[k2 v] m IH]; [reflexivity|]. cbn. destruct (eqb k' k2) eqn:E; cbn.
  - apply eqb_ok in E as <-. destruct (eqb k k') eqn:F; [apply eqb_ok in F; contradiction|]. exact IH.
  - destruct (eqb k k2); [reflexivity|exact IH].
Qed.
Lemma a_get_put_same k v m : a_get eqb k (a_put eqb k v m) = Some v.
Proof. cbn. rewrite eqb_refl'. reflexivity. Qed.
Lemma a_get_put_other k k' v m : k <> k' -> a_get eqb k (a_put eqb k' v m) = a_get eqb k m.
Proof.
  intros N. cbn. destruct (eqb k k') eqn:F; [apply eqb_ok in F; contradiction|]. apply a_get_del_other. exact N.
Qed.
Lemma a_del_len_le k m : (length (a_del eqb k m) <= length m)%nat.
Proof. apply filter_len_le. Qed.
Lemma a_del_len_lt k m : a_get eqb k m <> None -> (length (a_del eqb k m) < length m)%nat.
Proof.
  induction m as [|[k' v] m IH]; cbn; [contradiction|]. destruct (eqb k k') eqn:E; cbn.
  - intros _. pose proof (a_del_len_le k m). unfold a_del in *. lia.
  - intros H. specialize (IH H). unfold a_del in *. lia.
Qed.
Lemma a_put_len k v m : a_get eqb k m <> None -> (length (a_put eqb k v m) <= length m)%nat.
Proof. intros H. cbn. pose proof (a_del_len_lt k m H). unfold a_del in *. lia. Qed.
Lemma a_get_In k v m : a_get eqb k m = Some v -> In (k, v) m.
Proof.
  induction m as [|[k' v'] m IH]; cbn; [discriminate|]. destruct (eqb k k') eqn:E; intros H.
  - apply eqb_ok in E as <-. injection H as ->. auto.
  - auto.
Qed.
Lemma In_a_get k v m : In (k, v) m -> a_get eqb k m <> None.
Proof.
  induction m as [|[k' v'] m IH]; cbn; [contradiction|]. intros [H|H].
  - injection H as -> ->. rewrite eqb_refl'. discriminate.
  - destruct (eqb k k'); [discriminate|auto].
Qed.
End AssocLemmas.

Lemma Neqb_ok : forall a b, N.eqb a b = true <-> a = b. Proof. apply N.eqb_eq. Qed.
Lemma rkey_ok : forall a b, rkey_eqb a b = true <-> a = b.
Proof.
  intros [a1 a2] [b1 b2]. unfold rkey_eqb. cbn. rewrite andb_true_iff, !N.eqb_eq. split; [intros [-> ->]; reflexivity|intros H; injection H; auto].
Qed.
Lemma rkey_dec (a b : rkey) : a = b \/ a <> b.
Proof. destruct (rkey_eqb a b) eqn:E; [left; apply rkey_ok; exact E|right; intros H; apply rkey_ok in H; congruence]. Qed.

Notation pget m d := (a_get N.eqb d (pm_pending m)).
Notation mget m k := (a_get rkey_eqb k (pm_missing m)).

(* [d] waits for [k] according to the pending map / according to the index *)
Definition waits (m : pmgr) (d : N) (k : rkey) : Prop :=
  exists p, pget m d = Some p /\ c_round (pc_cert p) = fst k + 1 /\ In (snd k) (pc_missing p).
Definition listed (m : pmgr) (d : N) (k : rkey) : Prop := exists ds, mget m k = Some ds /\ In d ds.

(* [E]: entries taken out of the index and not yet handled; [acc]: digests accepted so far; [work]: accepted digests whose
   children are still to be looked at *)
Record minv (U : cert -> Prop) (g : N) (acc : list N) (work : list rkey) (E : N -> rkey -> Prop) (m : pmgr) : Prop := mkMinv {
  mi_ent : forall d p, pget m d = Some p ->
     c_digest (pc_cert p) = d /\ U (pc_cert p) /\ 2 <= c_round (pc_cert p) /\ pc_missing p <> [] /\
     incl (pc_missing p) (c_parents (pc_cert p));
  mi_idx : forall d k, (listed m d k \/ E d k) <-> waits m d k;
  mi_set : forall k ds, mget m k = Some ds -> NoDup ds /\ ds <> [];
  mi_acc : forall d p q, pget m d = Some p -> In q (pc_missing p) -> In q acc ->
     In (c_round (pc_cert p) - 1, q) work \/ E d (c_round (pc_cert p) - 1, q);
  mi_par : forall d p q, pget m d = Some p -> In q (c_parents (pc_cert p)) ->
     In q (pc_missing p) \/ In q acc \/ c_round (pc_cert p) <= g + 1
}.
Definition noE : N -> rkey -> Prop := fun _ _ => False.
Definition remE (k : rkey) (rem : list N) : N -> rkey -> Prop := fun d k' => k' = k /\ In d rem.

Definition pend (m : pmgr) (d : N) : nat := match pget m d with Some _ => 1 | None => 0 end.
Definition cnt (d : N) (l : list cert) : nat := length (filter (fun c => c_digest c =? d) l).
Lemma cnt_app d a b : cnt d (a ++ b) = (cnt d a + cnt d b)%nat.
Proof. unfold cnt. rewrite filter_app, app_length. reflexivity. Qed.

(* a list of accepted certificates in causal order over the digests [S] *)
Definition ordered (g : N) (S : list N) (l : list cert) : Prop := forall l1 c l2, l = l1 ++ c :: l2 ->
  c_round c <= g + 1 \/ forall q, In q (c_parents c) -> In q (S ++ map c_digest l1).
Lemma ordered_nil g S : ordered g S [].
Proof. intros l1 c l2 H. destruct l1; discriminate. Qed.
Lemma app_snoc_inv {A} (l l1 l2 : list A) x c : l ++ [x] = l1 ++ c :: l2 ->
  (l1 = l /\ c = x /\ l2 = []) \/ exists l2', l = l1 ++ c :: l2' /\ l2 = l2' ++ [x].
Proof.
  intros H. destruct l2 as [|y l2] using rev_ind.
  - apply app_inj_tail in H as [-> ->]. left. auto.
  - right. exists l2. replace (l1 ++ c :: l2 ++ [y]) with ((l1 ++ c :: l2) ++ [y]) in H by (rewrite <- app_assoc; reflexivity).
    apply app_inj_tail in H as [-> ->]. auto.
Qed.
Lemma ordered_snoc g S l x : ordered g S l ->
  (c_round x <= g + 1 \/ forall q, In q (c_parents x) -> In q (S ++ map c_digest l)) -> ordered g S (l ++ [x]).
Proof.
  intros H Hx l1 c l2 E. apply app_snoc_inv in E as [(-> & -> & _)|(l2' & -> & _)]; [exact Hx|]. apply (H l1 c l2'). reflexivity.
Qed.

Lemma set_remove_In x y l : In y (set_remove' x l) <-> In y l /\ y <> x.
Proof.
  unfold set_remove'. rewrite filter_In, negb_true_iff, N.eqb_neq. reflexivity.
Qed.

Section Unblock.
Variable U : cert -> Prop.
Hypothesis Ucons : forall x y, U x -> U y -> In (c_digest x) (c_parents y) -> c_round y = c_round x + 1.
Variable g : N.
Variable S : list N.

Lemma unblock_ok k : forall ds m work ready,
  NoDup ds -> mget m k = None ->
  (In (snd k) (S ++ map c_digest ready) \/ fst k <= g) ->
  (forall k', In k' work -> In (snd k') (S ++ map c_digest ready) \/ fst k' <= g) ->
  minv U g (S ++ map c_digest ready) work (remE k ds) m ->
  ordered g S ready -> Forall U ready ->
  exists m' work' ready', unblock (snd k) ds m work ready = Ok (m', work', ready') /\
    minv U g (S ++ map c_digest ready') work' noE m' /\
    (forall k', In k' work' -> In (snd k') (S ++ map c_digest ready') \/ fst k' <= g) /\
    ordered g S ready' /\ Forall U ready' /\
    pm_missing m' = pm_missing m /\
    (length work' + length (pm_pending m') <= length work + length (pm_pending m))%nat /\
    (forall d, cnt d ready' + pend m' d = cnt d ready + pend m d)%nat.
Proof.
  induction ds as [|d ds IH]; intros m work ready ND MK KA WA I O FU; cbn [unblock].
  - exists m, work, ready. split; [reflexivity|]. split; [|repeat split; auto; lia].
    destruct I as [I1 I2 I3 I4 I5]. split; auto.
    + intros d0 k0. rewrite <- I2. unfold noE, remE. cbn. tauto.
    + intros d0 p q A B C. destruct (I4 d0 p q A B C) as [H|[_ []]]. auto.
  - inversion ND as [|? ? ND1 ND2]; subst.
    assert (W : waits m d k) by (apply (mi_idx _ _ _ _ _ _ I); right; split; [reflexivity|left; reflexivity]).
    destruct W as (p & G & R & Mi). rewrite G.
    destruct (mi_ent _ _ _ _ _ _ I d p G) as (Ed & Up & R2 & Ne & Inc).
    set (left := set_remove' (snd k) (pc_missing p)).
    assert (LI : forall q, In q left <-> In q (pc_missing p) /\ q <> snd k) by (intros q; apply set_remove_In).
    assert (KR : (c_round (pc_cert p) - 1, snd k) = k) by (destruct k as [k1 k2]; cbn in *; f_equal; lia).
    destruct left as [|q0 left'] eqn:EL.
    + (* the certificate is ready *)
      set (m1 := mkPmgr (a_del N.eqb d (pm_pending m)) (pm_missing m)).
      set (ready1 := ready ++ [pc_cert p]). set (work1 := work ++ [(c_round (pc_cert p), d)]).
      assert (Only : forall q, In q (pc_missing p) -> q = snd k).
      { intros q Hq. destruct (N.eq_dec q (snd k)) as [e|n]; [exact e|]. exfalso. apply (LI q). auto. }
      assert (P1 : pget m1 d = None) by apply a_get_del_same.
      assert (P2 : forall d', d' <> d -> pget m1 d' = pget m d') by (intros d' n; apply a_get_del_other; [apply Neqb_ok|exact n]).
      assert (AccUp : forall q, In q (S ++ map c_digest ready) -> In q (S ++ map c_digest ready1)).
      { intros q. unfold ready1. rewrite map_app, !in_app_iff. tauto. }
      destruct (IH m1 work1 ready1) as (m' & w' & r' & E & I' & WA' & O' & FU' & MM & LEN & CNT); auto.
      * destruct KA as [KA|KA]; [left; apply AccUp; exact KA|right; exact KA].
      * intros k' Hk. unfold work1 in Hk. apply in_app_iff in Hk as [Hk|[<-|[]]].
        -- destruct (WA k' Hk) as [A|A]; [left; apply AccUp; exact A|right; exact A].
        -- left. cbn. unfold ready1. rewrite map_app, !in_app_iff. right. right. left. exact Ed.
      * destruct I as [I1 I2 I3 I4 I5]. split.
        -- intros d' p' G'. destruct (N.eq_dec d' d) as [->|n]; [congruence|]. rewrite P2 in G' by exact n. auto.
        -- intros d' k'. change (listed m1 d' k') with (listed m d' k').
           destruct (N.eq_dec d' d) as [->|n].
           ++ split.
              ** intros [L|[-> L]]; [|contradiction]. exfalso.
                 assert (W : waits m d k') by (apply I2; left; exact L). destruct W as (p' & G' & R' & M'). rewrite G in G'.
                 injection G' as <-. assert (snd k' = snd k) by (apply Only; exact M').
                 assert (k' = k) as -> by (destruct k, k'; cbn in *; f_equal; [lia|assumption]).
                 destruct L as (ds' & L & _). rewrite MK in L. discriminate.
              ** intros (p' & G' & _). congruence.
           ++ assert (Q : waits m1 d' k' <-> waits m d' k') by (unfold waits; rewrite P2 by exact n; reflexivity).
              rewrite Q, <- I2. unfold remE. cbn. intuition congruence.
        -- exact I3.
        -- intros d' p' q G' Hq Ha. destruct (N.eq_dec d' d) as [->|n]; [congruence|]. rewrite P2 in G' by exact n.
           assert (Old : In q (S ++ map c_digest ready) ->
              In (c_round (pc_cert p') - 1, q) work1 \/ remE k ds d' (c_round (pc_cert p') - 1, q)).
           { intros Ho. destruct (I4 d' p' q G' Hq Ho) as [H|[H1 H2]]; [left; unfold work1; apply in_app_iff; auto|].
             right. split; [exact H1|]. destruct H2 as [H2|H2]; [congruence|exact H2]. }
           unfold ready1 in Ha. rewrite map_app, app_assoc, in_app_iff in Ha. destruct Ha as [Ha|[Ha|[]]]; [auto|].
           left. unfold work1. apply in_app_iff. right. left.
           destruct (I1 d' p' G') as (Ed' & Up' & _ & _ & Inc').
           assert (c_round (pc_cert p') = c_round (pc_cert p) + 1).
           { apply Ucons; auto. rewrite Ha. apply Inc'. exact Hq. }
           rewrite <- Ha, Ed. f_equal. lia.
        -- intros d' p' q G' Hq. destruct (N.eq_dec d' d) as [->|n]; [congruence|]. rewrite P2 in G' by exact n.
           destruct (I5 d' p' q G' Hq) as [H|[H|H]]; auto.
      * apply ordered_snoc; [exact O|]. destruct I as [_ _ _ _ I5].
        destruct (N.le_gt_cases (c_round (pc_cert p)) (g + 1)) as [Hle|Hgt]; [left; exact Hle|right].
        intros q Hq. destruct (I5 d p q G Hq) as [H|[H|H]]; [|exact H|lia].
        rewrite (Only q H). destruct KA as [KA|KA]; [exact KA|]. lia.
      * apply Forall_app. auto.
      * exists m', w', r'. do 6 (split; [assumption|]). split.
        -- unfold work1 in LEN. rewrite app_length in LEN. cbn [length] in LEN.
           assert (length (pm_pending m1) < length (pm_pending m))%nat by (apply (a_del_len_lt N.eqb Neqb_ok d); rewrite G; discriminate). lia.
        -- intros d'. rewrite CNT. unfold ready1. rewrite cnt_app. unfold pend. unfold cnt at 2. cbn [filter].
           destruct (N.eq_dec d' d) as [->|n].
           ++ rewrite P1, G, Ed, N.eqb_refl. cbn. lia.
           ++ rewrite P2 by exact n. rewrite Ed. destruct (d =? d') eqn:F; [apply N.eqb_eq in F; congruence|]. cbn. lia.
    + (* still waiting for something *)
      set (p1 := mkPcert (pc_cert p) (q0 :: left')).
      set (m1 := mkPmgr (a_put N.eqb d p1 (pm_pending m)) (pm_missing m)).
      assert (P1 : pget m1 d = Some p1) by (apply a_get_put_same; apply Neqb_ok).
      assert (P2 : forall d', d' <> d -> pget m1 d' = pget m d') by (intros d' n; apply a_get_put_other; [apply Neqb_ok|exact n]).
      assert (Sub : forall q, In q (pc_missing p1) <-> In q (pc_missing p) /\ q <> snd k) by (intros q; cbn [p1 pc_missing]; apply LI).
      destruct (IH m1 work ready) as (m' & w' & r' & E & I' & WA' & O' & FU' & MM & LEN & CNT); auto.
      * destruct I as [I1 I2 I3 I4 I5]. split.
        -- intros d' p' G'. destruct (N.eq_dec d' d) as [->|n].
           ++ rewrite P1 in G'. injection G' as <-. cbn. repeat split; auto; [discriminate|].
              intros q Hq. apply Inc. apply (Sub q). exact Hq.
           ++ rewrite P2 in G' by exact n. auto.
        -- intros d' k'. change (listed m1 d' k') with (listed m d' k').
           destruct (N.eq_dec d' d) as [->|n].
           ++ destruct (rkey_dec k' k) as [->|nk].
              ** split.
                 --- intros [(ds' & L & _)|[_ L]]; [congruence|contradiction].
                 --- intros (p' & G' & _ & M'). rewrite P1 in G'. injection G' as <-. apply Sub in M' as [_ M']. congruence.
              ** assert (Q : waits m1 d k' <-> waits m d k').
                 { unfold waits. rewrite P1, G. split; intros (p' & G' & R' & M'); injection G' as <-.
                   - exists p. repeat split; auto. apply Sub. exact M'.
                   - exists p1. repeat split; auto. apply Sub. split; [exact M'|]. intros F. apply nk. destruct k, k'; cbn in *.
                     subst. f_equal. lia. }
                 rewrite Q, <- I2. unfold remE. cbn. intuition congruence.
           ++ assert (Q : waits m1 d' k' <-> waits m d' k') by (unfold waits; rewrite P2 by exact n; reflexivity).
              rewrite Q, <- I2. unfold remE. cbn. intuition congruence.
        -- exact I3.
        -- intros d' p' q G' Hq Ha. destruct (N.eq_dec d' d) as [->|n].
           ++ rewrite P1 in G'. injection G' as <-. apply Sub in Hq as [Hq Hn].
              destruct (I4 d p q G Hq Ha) as [H|[H1 _]]; [left; exact H|]. exfalso. rewrite <- KR in H1. injection H1. congruence.
           ++ rewrite P2 in G' by exact n. destruct (I4 d' p' q G' Hq Ha) as [H|[H1 [H2|H2]]]; [auto|congruence|right; split; auto].
        -- intros d' p' q G' Hq. destruct (N.eq_dec d' d) as [->|n].
           ++ rewrite P1 in G'. injection G' as <-. cbn [p1 pc_cert] in *.
              destruct (I5 d p q G Hq) as [H|[H|H]]; auto.
              destruct (N.eq_dec q (snd k)) as [->|nq]; [|left; apply Sub; auto].
              right. destruct KA as [KA|KA]; [left; exact KA|right]. lia.
           ++ rewrite P2 in G' by exact n. destruct (I5 d' p' q G' Hq) as [H|[H|H]]; auto.
      * exists m', w', r'. do 6 (split; [assumption|]). split.
        -- assert (length (pm_pending m1) <= length (pm_pending m))%nat by (apply (a_put_len N.eqb Neqb_ok d p1); rewrite G; discriminate). lia.
        -- intros d'. rewrite CNT. f_equal. unfold pend. destruct (N.eq_dec d' d) as [->|n]; [rewrite P1, G; reflexivity|].
           rewrite P2 by exact n. reflexivity.
Qed.

Lemma minv_drop_work acc k work m : mget m k = None -> minv U g acc (k :: work) noE m -> minv U g acc work noE m.
Proof.
  intros MK [I1 I2 I3 I4 I5]. split; auto. intros d p q G Hq Ha. destruct (I4 d p q G Hq Ha) as [[H|H]|[]]; auto.
  exfalso. assert (W : waits m d k).
  { exists p. rewrite H. destruct (I1 d p G) as (_ & _ & R & _). cbn. repeat split; [exact G|lia|exact Hq]. }
  apply I2 in W as [(ds & L & _)|[]]. congruence.
Qed.
Lemma minv_take acc k work ds ds' m : mget m k = Some ds -> Permutation ds' ds -> minv U g acc (k :: work) noE m ->
  minv U g acc work (remE k ds') (mkPmgr (pm_pending m) (a_del rkey_eqb k (pm_missing m))).
Proof.
  intros MK Pm [I1 I2 I3 I4 I5].
  assert (D : forall k', k' <> k -> a_get rkey_eqb k' (a_del rkey_eqb k (pm_missing m)) = mget m k')
    by (intros k' n; apply a_get_del_other; [apply rkey_ok|exact n]).
  assert (IDX : forall d k', (listed (mkPmgr (pm_pending m) (a_del rkey_eqb k (pm_missing m))) d k' \/ remE k ds' d k') <-> waits m d k').
  { intros d k'. rewrite <- I2. unfold listed, remE, noE. cbn [pm_missing]. destruct (rkey_dec k' k) as [->|n].
    - rewrite a_get_del_same, MK. split.
      + intros [(x & H & _)|[_ H]]; [discriminate|]. left. exists ds. split; [reflexivity|]. eapply Permutation_in; eassumption.
      + intros [(x & H & H2)|[]]. injection H as <-. right. split; [reflexivity|].
        eapply Permutation_in; [apply Permutation_sym; exact Pm|exact H2].
    - rewrite D by exact n. split; [intros [H|[H _]]; [auto|contradiction]|intros [H|[]]; auto]. }
  split; auto.
  - intros k' x H. cbn [pm_missing] in H. destruct (rkey_dec k' k) as [->|n]; [rewrite a_get_del_same in H; discriminate|].
    rewrite D in H by exact n. apply (I3 k' x H).
  - intros d p q G Hq Ha. cbn [pm_pending] in G. destruct (I4 d p q G Hq Ha) as [[H|H]|[]]; auto.
    right. assert (W : waits m d k).
    { exists p. destruct (I1 d p G) as (_ & _ & R & _). rewrite H. cbn. repeat split; [exact G|lia|exact Hq]. }
    apply IDX in W as [(x & L & _)|W]; [cbn [pm_missing] in L; rewrite a_get_del_same in L; discriminate|]. rewrite <- H. exact W.
Qed.

Lemma cascade_ok ord : fair_order ord -> forall fuel m work ready,
  (length work + length (pm_pending m) <= fuel)%nat ->
  (forall k', In k' work -> In (snd k') (S ++ map c_digest ready) \/ fst k' <= g) ->
  minv U g (S ++ map c_digest ready) work noE m -> ordered g S ready -> Forall U ready ->
  exists m' ready', cascade ord fuel m work ready = Ok (m', ready') /\
    minv U g (S ++ map c_digest ready') [] noE m' /\ ordered g S ready' /\ Forall U ready' /\
    (length (pm_missing m') <= length (pm_missing m))%nat /\
    (forall k, (List.hd_error work = Some k -> mget m k <> None -> length (pm_missing m') < length (pm_missing m))%nat) /\
    (forall d, cnt d ready' + pend m' d = cnt d ready + pend m d)%nat.
Proof.
  intros FO. induction fuel as [|f IH]; intros m work ready LE WA I O FU.
  - destruct work as [|k work]; [|cbn in LE; lia]. exists m, ready. cbn. do 4 (split; [auto|]). split; [lia|]. split; [discriminate|auto].
  - destruct work as [|k work].
    { exists m, ready. cbn. do 4 (split; [auto|]). split; [lia|]. split; [discriminate|auto]. }
    cbn [cascade]. destruct (mget m k) as [ds|] eqn:MK.
    + set (m0 := mkPmgr (pm_pending m) (a_del rkey_eqb k (pm_missing m))).
      pose proof (FO (Datatypes.S f) ds) as Pm.
      destruct (unblock_ok k (ord (Datatypes.S f) ds) m0 work ready) as (m1 & w1 & r1 & E & I1 & WA1 & O1 & FU1 & MM & LEN & CNT); auto.
      * eapply Permutation_NoDup; [apply Permutation_sym; exact Pm|]. apply (mi_set _ _ _ _ _ _ I k ds MK).
      * apply a_get_del_same.
      * apply (WA k). left. reflexivity.
      * intros k' Hk. apply WA. right. exact Hk.
      * eapply minv_take; eassumption.
      * rewrite E. cbn [length] in LE. unfold m0 in LEN, MM; cbn [pm_pending pm_missing] in LEN, MM.
        destruct (IH m1 w1 r1) as (m2 & r2 & E2 & I2 & O2 & FU2 & ML & _ & CNT2); auto; [unfold rkey in *; lia|].
        exists m2, r2. rewrite MM in ML.
        assert (LT : (length (a_del rkey_eqb k (pm_missing m)) < length (pm_missing m))%nat)
          by (apply (a_del_len_lt rkey_eqb rkey_ok); rewrite MK; discriminate).
        do 4 (split; [assumption|]). split; [lia|]. split; [intros k0 _ _; lia|].
        intros d. rewrite CNT2, CNT. reflexivity.
    + destruct (IH m work ready) as (m2 & r2 & E2 & I2 & O2 & FU2 & ML & _ & CNT2); auto.
      * cbn in LE. lia.
      * intros k' Hk. apply WA. right. exact Hk.
      * eapply minv_drop_work; eassumption.
      * exists m2, r2. do 5 (split; [assumption|]). split; [|exact CNT2].
        intros k0 H H2. cbn in H. injection H as <-. congruence.
Qed.
End Unblock.

Lemma minv_widen U g g' acc acc' work m : g <= g' -> incl acc acc' ->
  (forall d p q, pget m d = Some p -> In q (pc_missing p) -> In q acc' -> In q acc \/ In (c_round (pc_cert p) - 1, q) work) ->
  minv U g acc [] noE m -> minv U g' acc' work noE m.
Proof.
  intros Hg Hi Hn [I1 I2 I3 I4 I5]. split; auto.
  - intros d p q G Hq Ha. destruct (Hn d p q G Hq Ha) as [H|H]; [|auto]. destruct (I4 d p q G Hq H) as [[]|[]].
  - intros d p q G Hq. destruct (I5 d p q G Hq) as [H|[H|H]]; auto. right. right. lia.
Qed.

(* accepting one certificate *)
Lemma accept_ok (U : cert -> Prop) : (forall x y, U x -> U y -> In (c_digest x) (c_parents y) -> c_round y = c_round x + 1) ->
  forall ord g S c m, fair_order ord -> U c -> (c_round c <= g + 1 \/ forall q, In q (c_parents c) -> In q S) ->
  minv U g S [] noE m ->
  exists m' ready, update_pending ord (c_round c, c_digest c) m = Ok (m', ready) /\
    minv U g (S ++ map c_digest (c :: ready)) [] noE m' /\ ordered g S (c :: ready) /\ Forall U (c :: ready) /\
    (forall d, cnt d ready + pend m' d = pend m d)%nat.
Proof.
  intros Uc ord g S c m FO Hc Hp I.
  destruct (cascade_ok U Uc g (S ++ [c_digest c]) ord FO (Datatypes.S (length (pm_pending m))) m [(c_round c, c_digest c)] [])
    as (m' & r & E & I' & O & FU & _ & _ & CNT); auto.
  - intros k' [<-|[]]. left. cbn. rewrite app_nil_r. apply in_app_iff. right. left. reflexivity.
  - cbn [map]. rewrite app_nil_r. eapply minv_widen with (g := g); [lia| | |exact I].
    + intros q Hq. apply in_app_iff. auto.
    + intros d p q G Hq Ha. apply in_app_iff in Ha as [Ha|[<-|[]]]; [auto|]. right. left.
      destruct (mi_ent _ _ _ _ _ _ I d p G) as (_ & Up & _ & _ & Inc).
      rewrite (Uc c (pc_cert p) Hc Up (Inc _ Hq)). f_equal. lia.
  - apply ordered_nil.
  - exists m', r. split; [exact E|]. split; [|split; [|split; [constructor; assumption|]]].
    + cbn [map]. rewrite <- app_assoc in I'. exact I'.
    + intros l1 x l2 H. destruct l1 as [|y l1]; cbn [app] in H; injection H as <- H.
      * cbn. rewrite app_nil_r. exact Hp.
      * destruct (O l1 x l2 H) as [L|L]; [auto|]. right. intros q Hq. specialize (L q Hq). cbn [map]. rewrite <- app_assoc in L. exact L.
    + intros d. rewrite CNT. reflexivity.
Qed.

(* collecting one missing parent *)
Lemma collect_ok (U : cert -> Prop) : (forall x y, U x -> U y -> In (c_digest x) (c_parents y) -> c_round y = c_round x + 1) ->
  forall ord g S k m, fair_order ord -> fst k <= g -> mget m k <> None ->
  minv U g S [] noE m ->
  exists m' ready, update_pending ord k m = Ok (m', ready) /\
    minv U g (S ++ map c_digest ready) [] noE m' /\ ordered g S ready /\ Forall U ready /\
    (length (pm_missing m') < length (pm_missing m))%nat /\
    (forall d, cnt d ready + pend m' d = pend m d)%nat.
Proof.
  intros Uc ord g S k m FO Hk Mk I.
  destruct (cascade_ok U Uc g S ord FO (Datatypes.S (length (pm_pending m))) m [k] [])
    as (m' & r & E & I' & O & FU & _ & LT & CNT); auto.
  - intros k' [<-|[]]. right. exact Hk.
  - cbn [map]. rewrite app_nil_r. eapply minv_widen with (g := g); [lia|apply incl_refl| |exact I]. auto.
  - apply ordered_nil.
  - exists m', r. do 4 (split; [assumption|]). split; [apply (LT k eq_refl Mk)|exact CNT].
Qed.

(* the index after a pending certificate's missing parents have been entered *)
Lemma index_add d pr : forall miss mm,
  let mm' := fold_left (fun mm p => a_put rkey_eqb (pr, p) (set_add d (match a_get rkey_eqb (pr, p) mm with Some s => s | None => [] end)) mm) miss mm in
  (forall k ds, a_get rkey_eqb k mm = Some ds -> NoDup ds /\ ds <> []) ->
  (forall k ds, a_get rkey_eqb k mm' = Some ds -> NoDup ds /\ ds <> []) /\
  (forall d' k, (exists ds, a_get rkey_eqb k mm' = Some ds /\ In d' ds) <->
     ((exists ds, a_get rkey_eqb k mm = Some ds /\ In d' ds) \/ (d' = d /\ fst k = pr /\ In (snd k) miss))).
Proof.
  induction miss as [|p miss IH]; intros mm mm' H.
  - split; [exact H|]. intros d' k. cbn. tauto.
  - set (old := match a_get rkey_eqb (pr, p) mm with Some s => s | None => [] end).
    assert (HO : NoDup (set_add d old) /\ set_add d old <> []).
    { assert (N0 : NoDup old) by (unfold old; destruct (a_get rkey_eqb (pr, p) mm) as [s|] eqn:G; [apply (H _ _ G)|constructor]).
      unfold set_add. destruct (memN d old) eqn:M.
      - apply memN_In in M. split; [exact N0|]. intros F. rewrite F in M. destruct M.
      - apply memN_nIn in M. split; [constructor; assumption|discriminate]. }
    destruct (IH (a_put rkey_eqb (pr, p) (set_add d old) mm)) as [A B].
    + intros k ds G. destruct (rkey_dec k (pr, p)) as [->|n].
      * rewrite a_get_put_same in G by apply rkey_ok. injection G as <-. exact HO.
      * rewrite a_get_put_other in G by (try apply rkey_ok; exact n). apply (H k ds G).
    + split; [exact A|]. intros d' k. unfold mm'. cbn [fold_left]. fold old. rewrite B. cbn [In].
      destruct (rkey_dec k (pr, p)) as [->|n].
      * rewrite a_get_put_same by apply rkey_ok. cbn [fst snd].
        assert (Q : (exists ds, Some (set_add d old) = Some ds /\ In d' ds) <-> (exists ds, a_get rkey_eqb (pr, p) mm = Some ds /\ In d' ds) \/ d' = d).
        { transitivity (In d' old \/ d' = d).
          - unfold set_add. destruct (memN d old) eqn:M.
            + apply memN_In in M. split; [intros (ds & E & Hd); injection E as <-; auto|intros [Hd|Hd]; [eauto|subst d'; eauto]].
            + split; [intros (ds & E & Hd); injection E as <-; destruct Hd; auto|intros [Hd|Hd]; eexists; (split; [reflexivity|]); cbn; auto].
          - unfold old. destruct (a_get rkey_eqb (pr, p) mm) as [s|].
            + split; [intros [Hd|E]; eauto|intros [(ds & E & Hd)|E]; [injection E as <-; auto|auto]].
            + split; [intros [[]|E]; auto|intros [(ds & E & Hd)|E]; [discriminate|auto]]. }
        rewrite Q. clear. intuition.
      * rewrite a_get_put_other by (try apply rkey_ok; exact n). split.
        -- intros [Hd|(E1 & E2 & E3)]; auto.
        -- intros [Hd|(E1 & E2 & [E3|E3])]; auto. exfalso. apply n. destruct k; cbn in *; subst; reflexivity.
Qed.

(* parking a certificate *)
Lemma insert_ok (U : cert -> Prop) g S c miss m : U c -> 2 <= c_round c -> miss <> [] -> pget m (c_digest c) = None ->
  (forall q, In q miss -> In q (c_parents c) /\ ~ In q S) ->
  (forall q, In q (c_parents c) -> In q miss \/ In q S) ->
  minv U g S [] noE m ->
  exists m', insert_pending c miss m = Ok m' /\ minv U g S [] noE m' /\
    (forall d, pend m' d = pend m d + (if (c_digest c =? d)%N then 1 else 0))%nat.
Proof.
  intros Hc R2 Ne G Hm Hp I. unfold insert_pending. rewrite G. eexists. split; [reflexivity|].
  set (d := c_digest c) in *.
  destruct (index_add d (c_round c - 1) miss (pm_missing m) (mi_set _ _ _ _ _ _ I)) as [A B].
  set (mm' := fold_left _ miss (pm_missing m)) in *. set (m' := mkPmgr _ mm').
  assert (P1 : pget m' d = Some (mkPcert c miss)) by (apply a_get_put_same; apply Neqb_ok).
  assert (P2 : forall d', d' <> d -> pget m' d' = pget m d') by (intros d' n; apply a_get_put_other; [apply Neqb_ok|exact n]).
  split.
  - destruct I as [I1 I2 I3 I4 I5]. split.
    + intros d' p H. destruct (N.eq_dec d' d) as [->|n]; [|rewrite P2 in H by exact n; auto].
      rewrite P1 in H. injection H as <-. cbn. repeat split; auto. intros q Hq. apply Hm. exact Hq.
    + intros d' k. change (listed m' d' k) with (exists ds, a_get rkey_eqb k mm' = Some ds /\ In d' ds). rewrite B.
      change (exists ds, a_get rkey_eqb k (pm_missing m) = Some ds /\ In d' ds) with (listed m d' k).
      destruct (N.eq_dec d' d) as [->|n].
      * assert (NL : ~ listed m d k).
        { intros L. assert (W : waits m d k) by (apply I2; auto). destruct W as (p & W & _). congruence. }
        split.
        -- intros [[L|(_ & E & L)]|[]]; [contradiction|]. exists (mkPcert c miss). cbn. repeat split; [exact P1|lia|exact L].
        -- intros (p & W & R & L). rewrite P1 in W. injection W as <-. cbn in *. left. right. repeat split; [lia|exact L].
      * assert (Q : waits m' d' k <-> waits m d' k) by (unfold waits; rewrite P2 by exact n; reflexivity).
        rewrite Q, <- I2. intuition congruence.
    + exact A.
    + intros d' p q H Hq Ha. destruct (N.eq_dec d' d) as [->|n]; [|rewrite P2 in H by exact n; eauto].
      rewrite P1 in H. injection H as <-. cbn in Hq. destruct (Hm q Hq). contradiction.
    + intros d' p q H Hq. destruct (N.eq_dec d' d) as [->|n]; [|rewrite P2 in H by exact n; eauto].
      rewrite P1 in H. injection H as <-. cbn in *. destruct (Hp q Hq); auto.
  - intros d'. unfold pend. destruct (N.eq_dec d' d) as [->|n].
    + rewrite P1, G. rewrite N.eqb_refl. reflexivity.
    + rewrite P2 by exact n. destruct (d =? d') eqn:F; [apply N.eqb_eq in F; congruence|]. lia.
Qed.

(* the sweep's choice *)
Lemma rkey_ltb_spec a b : rkey_ltb a b = true <-> (fst a < fst b \/ (fst a = fst b /\ snd a < snd b)).
Proof. unfold rkey_ltb. rewrite orb_true_iff, andb_true_iff, !N.ltb_lt, N.eqb_eq. reflexivity. Qed.
Lemma first_key_None m : first_key m = None -> m = [].
Proof. destruct m as [|[k v] m]; [reflexivity|]. cbn. destruct (first_key m) as [k'|]; [destruct (rkey_ltb k' k)|]; discriminate. Qed.
Lemma first_key_Some m k : first_key m = Some k -> (exists v, In (k, v) m) /\ forall k' v, In (k', v) m -> fst k <= fst k'.
Proof.
  revert k. induction m as [|[k0 v0] m IH]; cbn [first_key]; intros k H; [discriminate|].
  destruct (first_key m) as [k1|] eqn:F.
  - destruct (IH k1 eq_refl) as [(v & Hv) L]. destruct (rkey_ltb k1 k0) eqn:C.
    + injection H as <-. split; [exists v; right; exact Hv|]. intros k' v' [E|Hin]; [|eauto].
      injection E as <- <-. apply rkey_ltb_spec in C. lia.
    + injection H as <-. split; [exists v0; left; reflexivity|]. intros k' v' [E|Hin]; [injection E as <- <-; lia|].
      specialize (L k' v' Hin). assert (~ (fst k1 < fst k0)) by (intros X; assert (rkey_ltb k1 k0 = true) by (apply rkey_ltb_spec; auto); congruence).
      lia.
  - injection H as <-. apply first_key_None in F as ->. split; [exists v0; left; reflexivity|].
    intros k' v' [E|[]]. injection E as <- <-. lia.
Qed.

Lemma next_ok (U : cert -> Prop) g S gg m : (forall x y, U x -> U y -> In (c_digest x) (c_parents y) -> c_round y = c_round x + 1) ->
  minv U g S [] noE m ->
  match next_for_gc gg m with
  | None => forall k ds, mget m k = Some ds -> gg < fst k
  | Some (k, m') => m' = m /\ fst k <= gg /\ mget m k <> None
  end.
Proof.
  intros Uc I. unfold next_for_gc. destruct (first_key (pm_missing m)) as [[r d]|] eqn:F.
  - destruct (first_key_Some _ _ F) as [(v & Hv) L]. destruct (gg <? r) eqn:C.
    + apply N.ltb_lt in C. intros k ds G. apply (a_get_In rkey_eqb rkey_ok) in G. specialize (L k ds G). cbn in L. lia.
    + apply N.ltb_ge in C. pose proof (In_a_get rkey_eqb rkey_ok _ _ _ Hv) as NN. split; [|split; [exact C|exact NN]].
      destruct (pget m d) as [p|] eqn:G; [|reflexivity]. exfalso.
      destruct (mget m (r, d)) as [ds|] eqn:MG; [|contradiction].
      destruct (mi_set _ _ _ _ _ _ I _ _ MG) as [_ Ne]. destruct ds as [|ch ds]; [contradiction|].
      assert (W : waits m ch (r, d)) by (apply (mi_idx _ _ _ _ _ _ I); left; exists (ch :: ds); split; [exact MG|left; reflexivity]).
      destruct W as (pc & Gc & Rc & Mc). cbn in Rc, Mc.
      destruct (mi_ent _ _ _ _ _ _ I ch pc Gc) as (_ & Uch & _ & _ & Inc).
      destruct (mi_ent _ _ _ _ _ _ I d p G) as (Ed & Up & R2 & Nm & _).
      assert (Rr : c_round (pc_cert pc) = c_round (pc_cert p) + 1) by (apply Uc; auto; rewrite Ed; apply Inc; exact Mc).
      destruct (pc_missing p) as [|q qs] eqn:Q; [contradiction|].
      assert (W : waits m d (c_round (pc_cert p) - 1, q)).
      { exists p. cbn. rewrite Q. repeat split; [exact G|lia|left; reflexivity]. }
      apply (mi_idx _ _ _ _ _ _ I) in W as [(ds' & W & _)|[]]. apply (a_get_In rkey_eqb rkey_ok) in W. specialize (L _ _ W). cbn in L. lia.
  - apply first_key_None in F. rewrite F. intros k ds G. discriminate.
Qed.
