(** C63: tables, and the invariant of a history. *)
From Verif Require Import Util KadModel KadSpec.
Local Open Scope N_scope.

Section TabLemmas.
Context {V : Type}.
Implicit Types t : bmap V.
Lemma keys_filter f t x : In x (map fst (filter f t)) -> In x (map fst t).
Proof. rewrite !in_map_iff. intros [e [E H]]. apply filter_In in H as [H _]. exists e; auto. Qed.
Lemma sorted_filter f t : bm_sorted t -> bm_sorted (filter f t).
Proof.
  unfold bm_sorted, bm_keys. induction t as [|e t IH]; intros H; [exact H|].
  cbn [map] in H. apply StronglySorted_inv in H as [Hs Hf]. cbn [filter]. destruct (f e); [|auto].
  cbn [map]. constructor; [auto|]. apply Forall_forall. intros x Hx. apply keys_filter in Hx. rewrite Forall_forall in Hf. auto.
Qed.
Lemma tdel_sorted k t : bm_sorted t -> bm_sorted (tdel k t).
Proof. apply sorted_filter. Qed.
Lemma lookup_filter f k t : bm_sorted t ->
  bm_lookup k (filter f t) = match bm_lookup k t with Some v => if f (k, v) then Some v else None | None => None end.
Proof.
  intros S. pose proof (sorted_filter f t S) as S'. destruct (bm_lookup k t) as [v|] eqn:E.
  - apply bm_lookup_In in E; auto. destruct (f (k, v)) eqn:F.
    + apply bm_lookup_In; auto. apply filter_In; auto.
    + apply bm_lookup_None. intros H. apply in_map_iff in H as [[k' v'] [Ek H]]. cbn [fst] in Ek; subst k'.
      apply filter_In in H as [H F']. apply bm_lookup_In in H; auto. apply bm_lookup_In in E; auto. congruence.
  - apply bm_lookup_None. apply bm_lookup_None in E. intros H. apply E. apply keys_filter in H. exact H.
Qed.
Lemma lookup_tdel k k' t : bm_sorted t -> bm_lookup k' (tdel k t) = if k' =? k then None else bm_lookup k' t.
Proof.
  intros S. unfold tdel. rewrite lookup_filter; auto. cbn [fst]. destruct (N.eqb_spec k' k); cbn; destruct (bm_lookup k' t); auto.
Qed.
Lemma filter_id f t : (forall e, In e t -> f e = true) -> filter f t = t.
Proof. induction t as [|e t IH]; intros H; [reflexivity|]. cbn [filter]. rewrite H, IH; auto; [intros; apply H; right; auto|left; auto]. Qed.
Lemma tdel_absent k t : bm_lookup k t = None -> tdel k t = t.
Proof.
  intros H. apply bm_lookup_None in H. apply filter_id. intros [k' v] Hi. cbn [fst]. destruct (N.eqb_spec k' k); auto. subst.
  destruct H. apply in_map_iff. exists (k, v). auto.
Qed.
Lemma tdel_len k t v : bm_sorted t -> bm_lookup k t = Some v -> tcount t = tcount (tdel k t) + 1.
Proof.
  intros S H. unfold tcount. induction t as [|[k' v'] t IH]; [discriminate H|].
  unfold bm_sorted, bm_keys in S. cbn [map] in S. apply StronglySorted_inv in S as [Ss Sf].
  cbn [bm_lookup] in H. cbn [tdel filter fst]. destruct (N.eqb_spec k k').
  - subst k'. rewrite N.eqb_refl. cbn [negb]. fold (tdel k t). rewrite tdel_absent; [cbn [length]; lia|].
    apply bm_lookup_None. intros Hi. rewrite Forall_forall in Sf. apply Sf in Hi. cbn in Hi. lia.
  - destruct (N.eqb_spec k' k); [congruence|]. cbn [negb length]. fold (tdel k t). specialize (IH Ss H). lia.
Qed.
Lemma insert_len_new k v t : bm_lookup k t = None -> tcount (bm_insert k v t) = tcount t + 1.
Proof.
  unfold tcount. induction t as [|[k' v'] t IH]; intros H; [reflexivity|]. cbn [bm_lookup] in H. cbn [bm_insert].
  destruct (N.ltb_spec k k'); [cbn [length]; lia|]. destruct (N.eqb_spec k k'); [discriminate H|]. cbn [length]. specialize (IH H). lia.
Qed.
Lemma insert_len_old k v t w : bm_sorted t -> bm_lookup k t = Some w -> tcount (bm_insert k v t) = tcount t.
Proof.
  intros S H. unfold tcount. rewrite bm_insert_length_in; auto. apply bm_lookup_In in H; auto. apply in_map_iff. exists (k, w). auto.
Qed.
Lemma filter_filter' f g t : filter f (filter g t) = filter (fun e => g e && f e) t.
Proof. induction t as [|e t IH]; [reflexivity|]. cbn [filter]. destruct (g e); cbn [filter andb]; rewrite IH; reflexivity. Qed.
Lemma filter_ext_in' f g t : (forall e, In e t -> f e = g e) -> filter f t = filter g t.
Proof. induction t as [|e t IH]; intros H; [reflexivity|]. cbn [filter]. rewrite (H e), IH; auto; [intros; apply H; right; auto|left; auto]. Qed.
Lemma tdel_all_keys ks t : tdel_all ks t = filter (fun e => negb (memN (fst e) ks)) t.
Proof.
  unfold tdel_all. revert t. induction ks as [|k ks IH]; intros t; cbn [fold_left].
  - symmetry. apply filter_id. auto.
  - rewrite IH. unfold tdel. rewrite filter_filter'. apply filter_ext_in'. intros e _. cbn. destruct (fst e =? k); auto.
Qed.
Lemma NoDup_keys_entry t e e' : NoDup (map fst t) -> In e t -> In e' t -> fst e = fst e' -> e = e'.
Proof.
  induction t as [|a t IH]; intros ND H H' E; [destruct H|]. cbn [map] in ND. apply NoDup_cons_iff in ND as [Hn ND].
  destruct H as [<-|H], H' as [<-|H']; auto.
  - destruct Hn. rewrite E. apply in_map; auto.
  - destruct Hn. rewrite <- E. apply in_map; auto.
Qed.
Lemma tdel_all_filter f t : bm_sorted t -> tdel_all (map fst (filter f t)) t = filter (fun e => negb (f e)) t.
Proof.
  intros S. rewrite tdel_all_keys. apply filter_ext_in'. intros e He. f_equal. destruct (f e) eqn:F.
  - apply memN_In. apply in_map. apply filter_In; auto.
  - apply memN_nIn. intros H. apply in_map_iff in H as [e' [E H]]. apply filter_In in H as [H F'].
    assert (e' = e) by (eapply NoDup_keys_entry; eauto; apply ssorted_lt_NoDup; exact S). congruence.
Qed.
Lemma filter_split_len f t : tcount t = tcount (filter f t) + tcount (filter (fun e => negb (f e)) t).
Proof. unfold tcount. induction t as [|e t IH]; [reflexivity|]. cbn [filter length]. destruct (f e); cbn [negb length]; lia. Qed.
End TabLemmas.

Lemma recs_set_recs d k t : recs (set_recs d k t) k = t.
Proof. destruct k; reflexivity. Qed.
Lemma provs_set_recs d k t k' : provs (set_recs d k t) k' = provs d k'.
Proof. destruct k, k'; reflexivity. Qed.
Lemma provs_set_provs d k t : provs (set_provs d k t) k = t.
Proof. destruct k; reflexivity. Qed.
Lemma recs_set_provs d k t k' : recs (set_provs d k t) k' = recs d k'.
Proof. destruct k, k'; reflexivity. Qed.

Lemma expired_mono e now now' : expired e now = true -> now <= now' -> expired e now' = true.
Proof. destruct e as [e|]; cbn; [|auto]. intros. apply N.leb_le. apply N.leb_le in H. lia. Qed.

Definition rlive (now : N) (row : option krec) : option krec := live_rec now row.
Definition rexp (now : N) (e : N * option krec) : bool := match snd e with Some r => expired (k_exp r) now | None => false end.

Lemma expired_keys_spec now t : (forall e, In e t -> snd e <> None) -> expired_keys now t = Some (map fst (filter (rexp now) t)).
Proof.
  induction t as [|[h [r|]] t IH]; intros H; [reflexivity| |destruct (H (h, None)); [left|]; auto].
  cbn [expired_keys]. rewrite IH; [|intros; apply H; right; auto]. cbn [filter rexp snd]. unfold rexp at 2. cbn [snd].
  destruct (expired (k_exp r) now); reflexivity.
Qed.
Lemma expired_keys_none now t : expired_keys now t = None <-> exists h, In (h, None) t.
Proof.
  induction t as [|[h [r|]] t IH]; cbn [expired_keys].
  - split; [discriminate|intros [h []]].
  - destruct (expired_keys now t).
    + split; [discriminate|]. intros [h' [E|H]]; [discriminate E|]. destruct IH as [_ IH]. discriminate IH. exists h'; auto.
    + split; auto. intros _. destruct IH as [IH _]. destruct IH as [h' H]; auto. exists h'. right; auto.
  - split; auto. intros _. exists h. left; auto.
Qed.
