(* Sorted maps under an injective change of keys: lookups, extensionality, updates. *)
From Verif Require Import Util EpochModel GasModel SnModel SnSpec.
Local Open Scope N_scope.

Lemma bm_tail {V} (k : N) (v : V) m : bm_sorted ((k, v) :: m) -> bm_sorted m.
Proof. unfold bm_sorted. cbn [bm_keys map fst]. intros H. inversion H; auto. Qed.
Lemma bm_head_lt {V} (k : N) (v : V) m k' : bm_sorted ((k, v) :: m) -> In k' (bm_keys m) -> k < k'.
Proof. unfold bm_sorted. cbn [bm_keys map fst]. intros H Hi. inversion H as [|? ? _ Hf]; subst. rewrite Forall_forall in Hf. auto. Qed.
Lemma bm_lookup_key {V} k (v : V) m : bm_lookup k m = Some v -> In k (bm_keys m).
Proof. intros H. destruct (in_dec N.eq_dec k (bm_keys m)) as [Hi|Hi]; auto. apply bm_lookup_None in Hi. congruence. Qed.

Lemma bm_ext {V} (m : bmap V) : forall m', bm_sorted m -> bm_sorted m' -> (forall k, bm_lookup k m = bm_lookup k m') -> m = m'.
Proof.
  induction m as [|[k v] m IH]; intros [|[k' v'] m'] Hs Hs' H; auto.
  - specialize (H k'). cbn [bm_lookup] in H. rewrite N.eqb_refl in H. discriminate.
  - specialize (H k). cbn [bm_lookup] in H. rewrite N.eqb_refl in H. discriminate.
  - assert (Hk : k = k').
    { pose proof (H k) as H1. pose proof (H k') as H2. cbn [bm_lookup] in H1, H2. rewrite N.eqb_refl in H1, H2.
      destruct (N.eqb_spec k k') as [|Hne]; auto. destruct (N.eqb_spec k' k) as [|_]; [congruence|].
      symmetry in H1. apply bm_lookup_key in H1, H2. pose proof (bm_head_lt _ _ _ _ Hs H2). pose proof (bm_head_lt _ _ _ _ Hs' H1). lia. }
    subst k'. assert (Hv : v = v').
    { specialize (H k). cbn [bm_lookup] in H. rewrite N.eqb_refl in H. congruence. }
    subst v'. f_equal. apply IH; [eapply bm_tail; eauto|eapply bm_tail; eauto|].
    intros x. specialize (H x). cbn [bm_lookup] in H. revert H. destruct (N.eqb_spec x k) as [He|He]; intros H; [|exact H].
    assert (A : forall mm : bmap V, bm_sorted ((k, v) :: mm) -> bm_lookup k mm = None).
    { intros mm Hm. apply bm_lookup_None. intros Hi. pose proof (bm_head_lt _ _ _ _ Hm Hi). lia. }
    subst x. rewrite !A; auto.
Qed.

Lemma bm_of_list_snoc {V} (l : list (N * V)) k v : bm_of_list (l ++ [(k, v)]) = bm_insert k v (bm_of_list l).
Proof. unfold bm_of_list. rewrite fold_left_app. auto. Qed.

Lemma bm_insert_last {V} k (v : V) m : (forall x, In x (bm_keys m) -> x < k) -> bm_insert k v m = m ++ [(k, v)].
Proof.
  induction m as [|[a b] m IH]; intros H; cbn [bm_insert app]; auto.
  assert (a < k) by (apply H; cbn; auto). destruct (N.ltb_spec k a); [lia|]. destruct (N.eqb_spec k a); [lia|].
  rewrite IH; auto. intros x Hx. apply H. cbn. auto.
Qed.

Lemma sorted_snoc_lt {V} (l : list (N * V)) k v : bm_sorted (l ++ [(k, v)]) -> bm_sorted l /\ (forall x, In x (bm_keys l) -> x < k).
Proof.
  unfold bm_sorted, bm_keys. rewrite map_app. cbn [map fst]. induction (map fst l) as [|a r IH]; cbn [app]; intros H.
  - split; [constructor|intros x []].
  - inversion H as [|? ? Hs Hf]; subst. destruct (IH Hs) as [H1 H2]. rewrite Forall_app in Hf. destruct Hf as [Hf1 Hf2].
    split; [constructor; auto|]. intros x [<-|Hx]; [inversion Hf2; auto|auto].
Qed.
Lemma bm_of_list_id {V} (l : bmap V) : bm_sorted l -> bm_of_list l = l.
Proof.
  induction l as [|[k v] l IH] using rev_ind; auto. intros H. rewrite bm_of_list_snoc.
  destruct (sorted_snoc_lt _ _ _ H) as [H1 H2]. rewrite (IH H1). apply bm_insert_last. auto.
Qed.

(* ---------- values ---------- *)
Lemma vmap_keys {A B} (f : A -> B) m : bm_keys (vmap f m) = bm_keys m.
Proof. unfold vmap, bm_keys. rewrite map_map. auto. Qed.
Lemma vmap_sorted {A B} (f : A -> B) m : bm_sorted m -> bm_sorted (vmap f m).
Proof. unfold bm_sorted. rewrite vmap_keys. auto. Qed.
Lemma vmap_lookup {A B} (f : A -> B) m k : bm_lookup k (vmap f m) = option_map f (bm_lookup k m).
Proof. induction m as [|[a b] m IH]; cbn [vmap map bm_lookup fst snd]; auto. destruct (k =? a); auto. Qed.
Lemma vmap_insert {A B} (f : A -> B) k v m : vmap f (bm_insert k v m) = bm_insert k (f v) (vmap f m).
Proof.
  induction m as [|[a b] m IH]; cbn [bm_insert vmap map fst snd]; auto.
  destruct (k <? a); [auto|]. destruct (k =? a); [auto|]. cbn [map fst snd]. unfold vmap in IH. rewrite IH. auto.
Qed.

(* ---------- keys ---------- *)
Section Rehash.
Context {V : Type}.
Variable key : N -> N.
Hypothesis key_inj : forall a b, key a = key b -> a = b.
Implicit Types m : bmap V.

Lemma rehash_sorted m : bm_sorted (rehash key m).
Proof. apply bm_of_list_sorted. Qed.
Lemma rehash_snoc m k v : rehash key (m ++ [(k, v)]) = bm_insert (key k) v (rehash key m).
Proof. unfold rehash. rewrite map_app. cbn [map fst snd]. apply bm_of_list_snoc. Qed.
Lemma rehash_lookup m k : bm_sorted m -> bm_lookup (key k) (rehash key m) = bm_lookup k m.
Proof.
  induction m as [|[a b] m IH] using rev_ind; intros H; auto.
  destruct (sorted_snoc_lt _ _ _ H) as [H1 H2]. rewrite rehash_snoc, bm_lookup_insert by apply rehash_sorted.
  rewrite <- (bm_insert_last a b m) by auto. rewrite bm_lookup_insert by auto. rewrite IH by auto.
  destruct (N.eqb_spec (key k) (key a)) as [He|He].
  - apply key_inj in He. subst. rewrite N.eqb_refl. auto.
  - destruct (N.eqb_spec k a) as [Heq|?]; [subst k|]; [congruence|auto].
Qed.
Lemma rehash_lookup_out m x : (forall k, In k (bm_keys m) -> key k <> x) -> bm_lookup x (rehash key m) = None.
Proof.
  intros H. apply bm_lookup_None. unfold rehash. rewrite bm_of_list_keys. rewrite map_map. cbn [fst].
  intros Hi. apply in_map_iff in Hi as (e & He & Hi). apply (H (fst e)); auto. apply in_map. auto.
Qed.
Lemma rehash_lookup_inv m x v : bm_sorted m -> bm_lookup x (rehash key m) = Some v -> exists k, x = key k /\ bm_lookup k m = Some v.
Proof.
  intros Hs H. pose proof (bm_lookup_key _ _ _ H) as Hi. unfold rehash in Hi. rewrite bm_of_list_keys, map_map in Hi. cbn [fst] in Hi.
  apply in_map_iff in Hi as (e & He & _). exists (fst e). split; auto. rewrite <- He in H. rewrite rehash_lookup in H; auto.
Qed.
Lemma rehash_insert m k v : bm_sorted m -> rehash key (bm_insert k v m) = bm_insert (key k) v (rehash key m).
Proof.
  intros Hs. apply bm_ext; [apply rehash_sorted|apply bm_insert_sorted, rehash_sorted|]. intros x.
  rewrite (bm_lookup_insert (key k)) by apply rehash_sorted.
  destruct (bm_lookup x (rehash key (bm_insert k v m))) as [w|] eqn:Hx.
  - apply rehash_lookup_inv in Hx as (k' & -> & Hx); [|apply bm_insert_sorted; auto].
    rewrite bm_lookup_insert in Hx by auto. rewrite rehash_lookup by auto.
    destruct (N.eqb_spec k' k) as [Heq|Hne]; [subst k'|]; [rewrite N.eqb_refl; auto|].
    destruct (N.eqb_spec (key k') (key k)) as [He|]; [apply key_inj in He; congruence|auto].
  - destruct (N.eqb_spec x (key k)) as [->|Hne].
    + rewrite rehash_lookup in Hx by (apply bm_insert_sorted; auto). rewrite bm_lookup_insert, N.eqb_refl in Hx by auto. discriminate.
    + destruct (bm_lookup x (rehash key m)) as [w|] eqn:Hy; auto.
      apply rehash_lookup_inv in Hy as (k' & -> & Hy); auto.
      rewrite rehash_lookup in Hx by (apply bm_insert_sorted; auto). rewrite bm_lookup_insert in Hx by auto.
      destruct (N.eqb_spec k' k) as [Heq|?]; [subst k'|]; [congruence|congruence].
Qed.
Lemma rehash_inj m m' : bm_sorted m -> bm_sorted m' -> rehash key m = rehash key m' -> m = m'.
Proof. intros H H' He. apply bm_ext; auto. intros k. rewrite <- (rehash_lookup m k H), <- (rehash_lookup m' k H'), He. auto. Qed.
Lemma rehash_vmap {W} (f : V -> W) m : bm_sorted m -> rehash key (vmap f m) = vmap f (rehash key m).
Proof.
  induction m as [|[a b] m IH] using rev_ind; intros H; auto.
  destruct (sorted_snoc_lt _ _ _ H) as [H1 H2]. rewrite rehash_snoc. rewrite vmap_insert, <- IH by auto.
  unfold vmap. rewrite map_app. cbn [map fst snd]. unfold rehash. rewrite map_app. cbn [map fst snd]. apply bm_of_list_snoc.
Qed.
End Rehash.

(* ---------- deleting a slot ---------- *)
Lemma bm_del_lookup k m x : bm_lookup x (bm_del k m) = if x =? k then None else bm_lookup x m.
Proof.
  unfold bm_del. induction m as [|[a b] m IH]; cbn [filter bm_lookup fst]; [destruct (x =? k); auto|].
  destruct (N.eqb_spec a k) as [Heq|Hne]; [subst a|]; cbn [negb bm_lookup].
  - rewrite IH. destruct (N.eqb_spec x k); auto.
  - rewrite IH. destruct (N.eqb_spec x a) as [Heq|?]; [subst x|]; auto. destruct (N.eqb_spec a k); [congruence|auto].
Qed.
Lemma bm_filter_sorted {V} (f : N * V -> bool) m : bm_sorted m -> bm_sorted (filter f m).
Proof.
  induction m as [|[a b] m IH]; intros H; auto. pose proof (IH (bm_tail _ _ _ H)) as H1. cbn [filter].
  destruct (f (a, b)); auto. unfold bm_sorted. cbn [bm_keys map fst]. constructor; [auto|].
  apply Forall_forall. intros x Hx. apply in_map_iff in Hx as ([k v] & <- & Hx). apply filter_In in Hx as [Hx _].
  apply (bm_head_lt _ _ _ k H). apply (in_map fst) in Hx. auto.
Qed.
Lemma bm_del_sorted k m : bm_sorted m -> bm_sorted (bm_del k m).
Proof. apply bm_filter_sorted. Qed.
Lemma rehash_del key k m : (forall a b, key a = key b -> a = b) -> bm_sorted m -> rehash key (bm_del k m) = bm_del (key k) (rehash key m).
Proof.
  intros Hk Hs. apply bm_ext; [apply rehash_sorted|apply bm_del_sorted, rehash_sorted|]. intros x. rewrite bm_del_lookup.
  destruct (bm_lookup x (rehash key (bm_del k m))) as [w|] eqn:Hx.
  - apply rehash_lookup_inv in Hx as (k' & -> & Hx); [|auto|apply bm_del_sorted; auto].
    rewrite bm_del_lookup in Hx. rewrite rehash_lookup by auto. destruct (N.eqb_spec k' k) as [|Hne]; [discriminate|].
    destruct (N.eqb_spec (key k') (key k)) as [He|]; [apply Hk in He; congruence|auto].
  - destruct (N.eqb_spec x (key k)) as [->|Hne]; auto.
    destruct (bm_lookup x (rehash key m)) as [w|] eqn:Hy; auto. apply rehash_lookup_inv in Hy as (k' & -> & Hy); auto.
    rewrite rehash_lookup in Hx by (auto using bm_del_sorted). rewrite bm_del_lookup in Hx.
    destruct (N.eqb_spec k' k) as [Heq|?]; [subst k'|]; congruence.
Qed.

(* ---------- reth's upserts commute with hashing the keys ---------- *)
Lemma put_slot_sorted m kv : bm_sorted m -> bm_sorted (put_slot m kv).
Proof. intros H. unfold put_slot. destruct (snd kv =? 0); [apply bm_del_sorted|apply bm_insert_sorted]; auto. Qed.
Lemma put_list_sorted l : forall m, bm_sorted m -> bm_sorted (fold_left put_slot l m).
Proof. induction l as [|kv l IH]; intros m H; cbn [fold_left]; auto. apply IH, put_slot_sorted. auto. Qed.
Lemma put_slot_rehash key m kv : (forall a b, key a = key b -> a = b) -> bm_sorted m ->
  rehash key (put_slot m kv) = put_slot (rehash key m) (key (fst kv), snd kv).
Proof. intros Hk Hs. unfold put_slot. cbn [fst snd]. destruct (snd kv =? 0); [apply rehash_del; auto|apply rehash_insert; auto]. Qed.
Lemma put_list_rehash key l : (forall a b, key a = key b -> a = b) -> forall m, bm_sorted m ->
  rehash key (fold_left put_slot l m) = fold_left put_slot (map (fun kv => (key (fst kv), snd kv)) l) (rehash key m).
Proof.
  intros Hk. induction l as [|kv l IH]; intros m H; cbn [fold_left map]; auto.
  rewrite IH by (apply put_slot_sorted; auto). rewrite put_slot_rehash; auto.
Qed.
Lemma bm_insert_In {V} k (v : V) m x : In x (bm_insert k v m) -> x = (k, v) \/ In x m.
Proof.
  induction m as [|[a b] m IH]; cbn [bm_insert]; [intros [<-|[]]; auto|].
  destruct (k <? a); [intros [<-|H]; auto|]. destruct (k =? a); [intros [<-|H]; [auto|right; right; auto]|].
  intros [<-|H]; [right; left; auto|]. apply IH in H as [->|H]; auto. right. right. auto.
Qed.
Lemma put_list_nonzero l : forall m, Forall (fun kv : N * N => snd kv <> 0) m -> Forall (fun kv => snd kv <> 0) (fold_left put_slot l m).
Proof.
  induction l as [|kv l IH]; intros m H; cbn [fold_left]; auto. apply IH. unfold put_slot.
  destruct (N.eqb_spec (snd kv) 0) as [He|He].
  - apply Forall_forall. intros x Hx. apply filter_In in Hx as [Hx _]. rewrite Forall_forall in H. auto.
  - apply Forall_forall. intros x Hx. apply bm_insert_In in Hx as [->|Hx]; [cbn; auto|]. rewrite Forall_forall in H. auto.
Qed.
(* slots in strictly ascending order, none of them zero: the map is the list *)
Lemma put_list_id l : bm_sorted l -> Forall (fun kv : N * N => snd kv <> 0) l -> fold_left put_slot l [] = l.
Proof.
  induction l as [|[k v] l IH] using rev_ind; intros Hs Hz; auto. rewrite fold_left_app. cbn [fold_left].
  apply Forall_app in Hz as [Hz1 Hz2]. destruct (sorted_snoc_lt _ _ _ Hs) as [H1 H2]. rewrite IH by auto.
  unfold put_slot. cbn [fst snd]. inversion Hz2 as [|? ? Hv _]; subst. cbn [snd] in Hv.
  destruct (N.eqb_spec v 0); [congruence|]. apply bm_insert_last. auto.
Qed.

(* ---------- states ---------- *)
Definition hval (E : senv) (p : sacc * bmap N) : sacc * bmap N := (fst p, rehash (sv_key E) (snd p)).
Lemma hashed_eq E st : hashed E st = rehash (sv_key E) (vmap (hval E) st).
Proof. auto. Qed.
Lemma wf_lookup st a acc ss : wf_state st -> bm_lookup a st = Some (acc, ss) -> bm_sorted ss /\ Forall (fun kv => snd kv <> 0) ss.
Proof.
  intros [Hs Hf] H. apply bm_lookup_In in H; auto. rewrite Forall_forall in Hf. apply (Hf _ H).
Qed.
Lemma wf_insert st a acc ss : wf_state st -> bm_sorted ss -> Forall (fun kv => snd kv <> 0) ss -> wf_state (bm_insert a (acc, ss) st).
Proof.
  intros [Hs Hf] H1 H2. split; [apply bm_insert_sorted; auto|]. apply Forall_forall. intros x Hx.
  apply bm_insert_In in Hx as [->|Hx]; [cbn; auto|]. rewrite Forall_forall in Hf. auto.
Qed.
Lemma put_acc_wf a acc st : wf_state st -> wf_state (put_acc a acc st).
Proof.
  intros H. unfold put_acc. destruct (bm_lookup a st) as [[acc' ss]|] eqn:El.
  - destruct (wf_lookup _ _ _ _ H El). apply wf_insert; auto.
  - apply wf_insert; auto. constructor.
Qed.
Lemma put_slots_wf a l st : wf_state st -> wf_state (put_slots a l st).
Proof.
  intros H. unfold put_slots. destruct (bm_lookup a st) as [[acc ss]|] eqn:El; auto.
  destruct (wf_lookup _ _ _ _ H El). apply wf_insert; auto using put_list_sorted, put_list_nonzero.
Qed.
Section Env.
Variable E : senv.
Hypothesis Hk : forall a b, sv_key E a = sv_key E b -> a = b.
Lemma hashed_lookup st a : wf_state st -> bm_lookup (sv_key E a) (hashed E st) = option_map (hval E) (bm_lookup a st).
Proof.
  intros [Hs _]. rewrite hashed_eq, rehash_lookup; auto using vmap_sorted. apply vmap_lookup.
Qed.
Lemma hashed_insert st a p : wf_state st -> hashed E (bm_insert a p st) = bm_insert (sv_key E a) (hval E p) (hashed E st).
Proof. intros [Hs _]. rewrite !hashed_eq, vmap_insert. apply rehash_insert; auto using vmap_sorted. Qed.
Lemma hashed_put_acc a acc st : wf_state st -> hashed E (put_acc a acc st) = put_acc (sv_key E a) acc (hashed E st).
Proof.
  intros H. unfold put_acc. rewrite hashed_insert by auto. rewrite hashed_lookup by auto.
  destruct (bm_lookup a st) as [[acc' ss]|]; auto.
Qed.
Lemma hashed_put_slots a l st : wf_state st ->
  hashed E (put_slots a l st) = put_slots (sv_key E a) (map (fun kv => (sv_key E (fst kv), snd kv)) l) (hashed E st).
Proof.
  intros H. unfold put_slots. rewrite hashed_lookup by auto.
  destruct (bm_lookup a st) as [[acc ss]|] eqn:El; cbn [option_map hval fst snd]; auto.
  rewrite hashed_insert by auto. destruct (wf_lookup _ _ _ _ H El) as [H1 _]. unfold hval. cbn [fst snd].
  rewrite put_list_rehash; auto.
Qed.
Lemma hashed_wf st : wf_state st -> wf_state (hashed E st).
Proof.
  intros [Hs Hf]. split; [apply rehash_sorted|]. apply Forall_forall. intros [x [acc ss]] Hx.
  apply bm_lookup_In in Hx; [|apply rehash_sorted]. rewrite hashed_eq in Hx.
  apply rehash_lookup_inv in Hx as (k & _ & Hx); [|auto|apply vmap_sorted; auto]. rewrite vmap_lookup in Hx.
  destruct (bm_lookup k st) as [[acc' ss']|] eqn:El; [|discriminate]. cbn [option_map hval fst snd] in Hx. injection Hx as -> <-.
  cbn [fst snd]. split; [apply rehash_sorted|]. apply bm_lookup_In in El; auto. rewrite Forall_forall in Hf. destruct (Hf _ El) as [H1 H2].
  cbn [fst snd] in H1, H2. apply Forall_forall. intros [y w] Hy. apply bm_lookup_In in Hy; [|apply rehash_sorted].
  apply rehash_lookup_inv in Hy as (k' & _ & Hy); auto. apply bm_lookup_In in Hy; auto. rewrite Forall_forall in H2. apply (H2 _ Hy).
Qed.
Lemma hashed_inj st st' : wf_state st -> wf_state st' -> hashed E st = hashed E st' -> st = st'.
Proof.
  intros [Hs Hf] [Hs' Hf'] H. rewrite !hashed_eq in H. apply rehash_inj in H; auto using vmap_sorted.
  assert (Hall : forall k, bm_lookup k st = bm_lookup k st').
  { intros k. pose proof (f_equal (bm_lookup k) H) as H1. rewrite !vmap_lookup in H1.
    destruct (bm_lookup k st) as [[a ss]|] eqn:E1, (bm_lookup k st') as [[a' ss']|] eqn:E2; cbn [option_map hval fst snd] in H1; try discriminate; auto.
    injection H1 as -> H1. apply rehash_inj in H1; auto; [subst; auto| |].
    - apply bm_lookup_In in E1; auto. rewrite Forall_forall in Hf. apply (Hf _ E1).
    - apply bm_lookup_In in E2; auto. rewrite Forall_forall in Hf'. apply (Hf' _ E2). }
  apply bm_ext; auto.
Qed.
Lemma norm_wf st : wf_state st -> wf_state (norm E st).
Proof.
  intros [Hs Hf]. split; [apply vmap_sorted; auto|]. apply Forall_forall. intros x Hx. apply in_map_iff in Hx as (e & <- & He).
  cbn [fst snd]. rewrite Forall_forall in Hf. apply (Hf _ He).
Qed.
Lemma norm_hashed st : wf_state st -> norm E (hashed E st) = hashed E (norm E st).
Proof.
  intros [Hs Hf]. unfold norm. rewrite !hashed_eq. rewrite <- rehash_vmap by (auto using vmap_sorted).
  f_equal. unfold vmap. rewrite !map_map. auto.
Qed.
Lemma norm_idem st : norm E (norm E st) = norm E st.
Proof.
  unfold norm, vmap. rewrite map_map. apply map_ext. intros [a [acc ss]]. cbn [fst snd]. do 2 f_equal. unfold norm_acc. cbn [ac_nonce ac_bal ac_code].
  destruct (ac_code acc) as [h|]; auto. destruct (N.eqb_spec h (sv_code E [])) as [|Hn]; auto.
  destruct (N.eqb_spec h (sv_code E [])); congruence.
Qed.
End Env.
