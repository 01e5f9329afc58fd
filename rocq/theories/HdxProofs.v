(* Proofs about the digest index. *)
From Verif Require Import Util HdxModel HdxSpec.

Lemma keqb_eq a b : keqb a b = true <-> a = b.
Proof.
  revert b. induction a as [|x a IH]; intros [|y b]; simpl; try (split; congruence).
  rewrite andb_true_iff, N.eqb_eq, IH. split; [intros [-> ->]; auto|intros H; injection H; auto].
Qed.
Lemma keqb_refl a : keqb a a = true. Proof. apply keqb_eq; auto. Qed.
Lemma keqb_neq a b : keqb a b = false <-> a <> b.
Proof. rewrite <- keqb_eq. destruct (keqb a b); split; congruence. Qed.
Lemma keqb_sym a b : keqb a b = keqb b a.
Proof.
  destruct (keqb a b) eqn:E.
  - apply keqb_eq in E; subst. symmetry; apply keqb_refl.
  - apply keqb_neq in E. symmetry. apply keqb_neq. congruence.
Qed.

(* ---------- association lists ---------- *)
Lemma aget_arem {A} (l : list (nat * A)) k k' : aget (arem l k) k' = if Nat.eqb k k' then None else aget l k'.
Proof.
  induction l as [|[a v] l IH]; simpl; [destruct (k =? k'); auto|].
  destruct (a =? k) eqn:E; simpl.
  - apply Nat.eqb_eq in E; subst. rewrite IH. destruct (k =? k') eqn:E2; auto.
  - rewrite IH. destruct (a =? k') eqn:E2; auto. apply Nat.eqb_eq in E2; subst.
    rewrite Nat.eqb_sym, E. auto.
Qed.
Lemma aget_aput {A} (l : list (nat * A)) k v k' : aget (aput l k v) k' = if Nat.eqb k k' then Some v else aget l k'.
Proof.
  unfold aput; simpl. destruct (k =? k') eqn:E; auto. rewrite aget_arem, E. auto.
Qed.
Lemma arem_In {A} (l : list (nat * A)) k e : In e (arem l k) -> In e l /\ fst e <> k.
Proof.
  unfold arem. rewrite filter_In. intros [H1 H2]. split; auto.
  apply negb_true_iff, Nat.eqb_neq in H2. auto.
Qed.
Lemma arem_NoDup {A} (l : list (nat * A)) k : NoDup (map fst l) -> NoDup (map fst (arem l k)).
Proof.
  induction l as [|[a v] l IH]; simpl; intros H; [constructor|].
  inversion H; subst. destruct (a =? k); simpl; auto. constructor; auto.
  intros Hin. apply in_map_iff in Hin as [e [He Hin]]. apply arem_In in Hin as [Hin _].
  apply H2. apply in_map_iff. eauto.
Qed.
Lemma aput_NoDup {A} (l : list (nat * A)) k v : NoDup (map fst l) -> NoDup (map fst (aput l k v)).
Proof.
  intros H. unfold aput. simpl. constructor; [|apply arem_NoDup; auto].
  intros Hin. apply in_map_iff in Hin as [e [He Hin]]. apply arem_In in Hin as [_ Hne]. auto.
Qed.
Lemma aget_In {A} (l : list (nat * A)) k v : aget l k = Some v -> In (k, v) l.
Proof.
  induction l as [|[a w] l IH]; simpl; [discriminate|].
  destruct (a =? k) eqn:E; intros H; [|right; auto].
  apply Nat.eqb_eq in E. injection H as ->. subst. auto.
Qed.
Lemma In_aget {A} (l : list (nat * A)) k v : NoDup (map fst l) -> In (k, v) l -> aget l k = Some v.
Proof.
  induction l as [|[a w] l IH]; simpl; intros Hn Hin; [tauto|].
  inversion Hn; subst. destruct Hin as [H|H].
  - injection H as -> ->. rewrite Nat.eqb_refl. auto.
  - destruct (a =? k) eqn:E; auto. apply Nat.eqb_eq in E; subst. exfalso. apply H1.
    apply in_map_iff. exists (k, v). auto.
Qed.
Lemma aget_None_In {A} (l : list (nat * A)) k : aget l k = None -> ~ In k (map fst l).
Proof.
  induction l as [|[a w] l IH]; simpl; auto.
  destruct (a =? k) eqn:E; [discriminate|]. apply Nat.eqb_neq in E. intros H [H1|H1]; auto. apply IH; auto.
Qed.
Lemma In_aget_some {A} (l : list (nat * A)) k : In k (map fst l) -> exists v, aget l k = Some v.
Proof.
  intros H. destruct (aget l k) eqn:E; eauto. exfalso. eapply aget_None_In; eauto.
Qed.

(* ---------- find_key ---------- *)
Lemma find_key_cons k k' p l : find_key k ((k', p) :: l) = if keqb k' k then Some p else find_key k l.
Proof. unfold find_key; simpl. destruct (keqb k' k); auto. Qed.
Lemma find_key_app k a b : find_key k (a ++ b) = match find_key k a with Some p => Some p | None => find_key k b end.
Proof.
  induction a as [|[k' p'] a IH]; simpl; auto.
  rewrite !find_key_cons. destruct (keqb k' k); auto.
Qed.
Lemma find_key_In k l : find_key k l <> None <-> In k (map fst l).
Proof.
  induction l as [|[k' p'] l IH]; simpl.
  - unfold find_key; simpl. split; [congruence|tauto].
  - rewrite find_key_cons. destruct (keqb k' k) eqn:E.
    + apply keqb_eq in E. split; [auto|congruence].
    + apply keqb_neq in E. rewrite IH. split; [auto|intros [H|H]; [congruence|auto]].
Qed.
Lemma find_key_set_first k p l k' :
  existsb (fun e => keqb (fst e) k) l = true ->
  find_key k' (set_first k p l) = if keqb k' k then Some p else find_key k' l.
Proof.
  induction l as [|[a q] l IH]; simpl; [discriminate|].
  destruct (keqb a k) eqn:E; simpl.
  - intros _. apply keqb_eq in E; subst a. rewrite !find_key_cons. rewrite (keqb_sym k k').
    destruct (keqb k' k); auto.
  - intros H. rewrite !find_key_cons, IH by auto.
    destruct (keqb a k') eqn:E2; auto. apply keqb_eq in E2; subst a. rewrite E. auto.
Qed.
Lemma set_first_len k p l : length (set_first k p l) = length l.
Proof. induction l as [|[a q] l IH]; simpl; auto. destruct (keqb a k); simpl; auto. Qed.
Lemma existsb_find_key k l : existsb (fun e : elem => keqb (fst e) k) l = true <-> find_key k l <> None.
Proof.
  induction l as [|[a q] l IH]; simpl; [unfold find_key; simpl; split; congruence|].
  rewrite find_key_cons. destruct (keqb a k); simpl; auto. split; congruence.
Qed.
Lemma latest_find k l r : latest k l r <-> find_key k l = r.
Proof.
  split.
  - induction 1; auto; rewrite find_key_cons.
    + rewrite keqb_refl. auto.
    + apply keqb_neq in H. rewrite H. auto.
  - revert r. induction l as [|[a q] l IH]; intros r.
    + unfold find_key; simpl. intros <-. constructor.
    + rewrite find_key_cons. destruct (keqb a k) eqn:E.
      * intros <-. apply keqb_eq in E; subst. constructor.
      * intros H. apply keqb_neq in E. constructor; auto.
Qed.

(* ---------- walking the overflow log ---------- *)
Lemma walk_fuel o f1 f2 p : p < f1 -> p < f2 -> walk o f1 p = walk o f2 p.
Proof.
  revert f2 p. induction f1 as [|f1 IH]; intros f2 p H1 H2; [lia|].
  destruct f2 as [|f2]; [lia|]. simpl. destruct (p =? 0) eqn:E; auto.
  destruct (o_cell o p) as [b| |]; auto.
  destruct (negb (b_ovf b =? 0) && (p <=? b_ovf b)) eqn:E2; auto.
  rewrite (IH f2 (b_ovf b)); auto.
  - apply Nat.eqb_neq in E. apply andb_false_iff in E2. rewrite negb_false_iff, Nat.eqb_eq, Nat.leb_gt in E2. lia.
  - apply Nat.eqb_neq in E. apply andb_false_iff in E2. rewrite negb_false_iff, Nat.eqb_eq, Nat.leb_gt in E2. lia.
Qed.

Lemma walk_agree o o' n f p :
  (forall q, q < n -> o_cell o' q = o_cell o q) -> p < n -> walk o' f p = walk o f p.
Proof.
  intros Ha. revert p. induction f as [|f IH]; intros p Hp; auto. simpl.
  destruct (p =? 0) eqn:E; auto. rewrite Ha by auto.
  destruct (o_cell o p) as [b| |]; auto.
  destruct (negb (b_ovf b =? 0) && (p <=? b_ovf b)) eqn:E2; auto.
  rewrite IH; auto.
  apply Nat.eqb_neq in E. apply andb_false_iff in E2. rewrite negb_false_iff, Nat.eqb_eq, Nat.leb_gt in E2. lia.
Qed.

Lemma items_agree o o' n x :
  (forall q, q < n -> o_cell o' q = o_cell o q) -> b_ovf x < n -> bucket_items o' x = bucket_items o x.
Proof. intros Ha Hx. unfold bucket_items. rewrite (walk_agree o o' n); auto. Qed.

(* a record that stops being readable only shortens the walk *)
Lemma walk_prefix o o' f p :
  (forall q b, o_cell o' q = CGood b -> o_cell o q = CGood b) ->
  exists t, fst (walk o f p) = fst (walk o' f p) ++ t.
Proof.
  intros Ha. revert p. induction f as [|f IH]; intros p; simpl; [exists []; auto|].
  destruct (p =? 0) eqn:E; [exists []; auto|].
  destruct (o_cell o' p) as [b| |] eqn:E'; try (simpl; eauto; fail).
  rewrite (Ha p b) by auto.
  destruct (negb (b_ovf b =? 0) && (p <=? b_ovf b)) eqn:E2; [exists []; auto|].
  destruct (IH (b_ovf b)) as [t Ht].
  destruct (walk o f (b_ovf b)) as [l w]; destruct (walk o' f (b_ovf b)) as [l' w']; simpl in *.
  exists t. rewrite Ht, app_assoc. auto.
Qed.
Lemma items_prefix o o' x :
  (forall q b, o_cell o' q = CGood b -> o_cell o q = CGood b) ->
  exists t, fst (bucket_items o x) = fst (bucket_items o' x) ++ t.
Proof.
  intros Ha. destruct (walk_prefix o o' (S (b_ovf x)) (b_ovf x) Ha) as [t Ht].
  unfold bucket_items.
  destruct (walk o (S (b_ovf x)) (b_ovf x)) as [l w]; destruct (walk o' (S (b_ovf x)) (b_ovf x)) as [l' w'].
  simpl in *. exists t. rewrite Ht, app_assoc. auto.
Qed.

(* ---------- overflow log invariant ---------- *)
Definition odx_ok (c : hcfg) (o : ofile) (safe : nat) : Prop :=
  0 < safe <= o_end o /\
  forall p x, aget (o_recs o) p = Some x -> 0 < p /\ p + hc_bsize c <= o_end o /\ (p + hc_bsize c <= safe \/ safe <= p).

Section Cfg.
Variable c : hcfg.
Hypothesis OK : hcfg_ok c.

Lemma save_buf_spec o safe x k p x' o' inc :
  odx_ok c o safe -> b_ovf x < o_end o -> save_buf c o x k p = (x', o', inc) ->
  odx_ok c o' safe /\ o_end o <= o_end o' /\ (forall q, q < o_end o -> o_cell o' q = o_cell o q) /\
  b_ovf x' < o_end o' /\ snd (bucket_items o' x') = snd (bucket_items o x) /\
  (forall k', find_key k' (fst (bucket_items o' x')) = if keqb k' k then Some p else find_key k' (fst (bucket_items o x))) /\
  (inc = false -> find_key k (fst (bucket_items o x)) <> None).
Proof.
  intros [Hs Hr] Hx. unfold save_buf.
  destruct (hc_elems c <=? length (b_elems x)) eqn:E1.
  - intros H; injection H as <- <- <-. pose proof (ho_bsize c OK) as Hb.
    assert (Ha : forall q, q < o_end o ->
      o_cell (mk_ofile (aput (o_recs o) (o_end o) (CGood x)) (o_end o + hc_bsize c)) q = o_cell o q).
    { intros q Hq. unfold o_cell; cbn [o_recs]. rewrite aget_aput.
      destruct (o_end o =? q) eqn:E; auto. apply Nat.eqb_eq in E. lia. }
    split.
    { split; cbn [o_end o_recs]; [lia|]. intros q y. rewrite aget_aput.
      destruct (o_end o =? q) eqn:E.
      - apply Nat.eqb_eq in E; subst q. intros _. lia.
      - intros H. specialize (Hr q y H). lia. }
    split; [cbn [o_end]; lia|]. split; [exact Ha|]. split; [cbn [o_end b_ovf]; lia|].
    assert (Hi : bucket_items (mk_ofile (aput (o_recs o) (o_end o) (CGood x)) (o_end o + hc_bsize c)) (mk_bucket (o_end o) [(k, p)])
                 = ((k, p) :: fst (bucket_items o x), snd (bucket_items o x))).
    { unfold bucket_items at 1. cbn [b_ovf b_elems].
      remember (o_end o) as e eqn:He. cbn [walk].
      assert (He0 : e =? 0 = false) by (apply Nat.eqb_neq; lia). rewrite He0.
      unfold o_cell at 1. cbn [o_recs]. rewrite aget_aput, Nat.eqb_refl.
      assert (Hl : negb (b_ovf x =? 0) && (e <=? b_ovf x) = false).
      { apply andb_false_iff. right. apply Nat.leb_gt. lia. }
      rewrite Hl.
      rewrite (walk_agree o _ e) by (auto; intros q Hq; apply Ha; lia).
      rewrite (walk_fuel o e (S (b_ovf x))) by lia.
      unfold bucket_items. destruct (walk o (S (b_ovf x)) (b_ovf x)) as [l w]. reflexivity. }
    rewrite Hi. cbn [fst snd]. split; auto. split; [|discriminate].
    intros k'. rewrite find_key_cons, keqb_sym. auto.
  - destruct (length (b_elems x) =? 0) eqn:E2.
    { intros H; injection H as <- <- <-.
      assert (b_elems x = []) as He by (destruct (b_elems x); simpl in *; auto; discriminate).
      split; [split; auto|]. split; auto. split; auto. split; [auto|].
      unfold bucket_items. cbn [b_ovf b_elems].
      destruct (walk o (S (b_ovf x)) (b_ovf x)) as [l w]. cbn [fst snd]. split; auto. split; [|discriminate].
      rewrite He. intros k'. cbn [app]. rewrite find_key_cons, keqb_sym. auto. }
    match goal with |- context[existsb ?f (b_elems x)] => destruct (existsb f (b_elems x)) eqn:E3 end.
    + intros H; injection H as <- <- <-.
      split; [split; auto|]. split; auto. split; auto. split; [auto|].
      unfold bucket_items. cbn [b_ovf b_elems].
      destruct (walk o (S (b_ovf x)) (b_ovf x)) as [l w]. cbn [fst snd]. split; auto. split.
      * intros k'. rewrite !find_key_app, find_key_set_first by auto. destruct (keqb k' k); auto.
      * intros _. apply existsb_find_key in E3. rewrite find_key_app. destruct (find_key k (b_elems x)); congruence.
    + intros H; injection H as <- <- <-.
      split; [split; auto|]. split; auto. split; auto. split; [auto|].
      unfold bucket_items. cbn [b_ovf b_elems].
      destruct (walk o (S (b_ovf x)) (b_ovf x)) as [l w]. cbn [fst snd]. split; auto. split; [|discriminate].
      intros k'. rewrite !find_key_app, find_key_cons, (keqb_sym k k').
      destruct (keqb k' k) eqn:E; [|change (find_key k' []) with (@None pos); destruct (find_key k' (b_elems x)); auto].
      apply keqb_eq in E; subst k'.
      destruct (find_key k (b_elems x)) eqn:Ef; auto.
      exfalso. assert (Hex : existsb (fun e : elem => keqb (fst e) k) (b_elems x) = true) by (apply existsb_find_key; congruence).
      refine (eq_true_false_abs _ Hex E3).
Qed.

(* ---------- linear hashing ---------- *)
Notation hb := (hash_to_bucket c).
Lemma npow2_bounds B : 1 <= B -> npow2 (B + 1) = 2 * (npow2 (B + 1) / 2) /\ npow2 (B + 1) / 2 <= B < npow2 (B + 1).
Proof.
  intros HB. unfold npow2.
  assert (Hl : 0 < Nat.log2_up (B + 1)) by (apply Nat.log2_up_pos; lia).
  pose proof (Nat.log2_up_spec (B + 1) ltac:(lia)) as [H1 H2].
  destruct (Nat.log2_up (B + 1)) as [|k]; [lia|]. cbn [Nat.pred] in H1.
  rewrite Nat.pow_succ_r' in *.
  assert (2 * 2 ^ k / 2 = 2 ^ k) as -> by (rewrite Nat.mul_comm; apply Nat.div_mul; lia).
  lia.
Qed.
Lemma npow2_unique B k : 2 ^ k <= B < 2 ^ S k -> npow2 (B + 1) = 2 ^ S k.
Proof.
  intros H. unfold npow2. f_equal. apply Nat.log2_up_unique; [lia|]. cbn [Nat.pred]. lia.
Qed.
Lemma npow2_next B : 1 <= B ->
  let M := npow2 (B + 1) in let M' := npow2 (B + 1 + 1) in
  (B + 1 < M /\ M' = M) \/ (B + 1 = M /\ M' = 2 * M).
Proof.
  intros HB M M'. subst M M'.
  assert (Hl : 0 < Nat.log2_up (B + 1)) by (apply Nat.log2_up_pos; lia).
  pose proof (Nat.log2_up_spec (B + 1) ltac:(lia)) as [H1 H2].
  unfold npow2 at 1 3 4 6.
  destruct (Nat.log2_up (B + 1)) as [|k]; [lia|]. cbn [Nat.pred] in H1.
  destruct (Nat.eq_dec (B + 1) (2 ^ S k)) as [He|Hne].
  - right. split; auto. rewrite (npow2_unique (B + 1) (S k)); [rewrite (Nat.pow_succ_r' 2 (S k)); lia|].
    rewrite (Nat.pow_succ_r' 2 (S k)). lia.
  - left. split; [lia|]. apply npow2_unique. lia.
Qed.
Lemma mod_step (h : N) (M : nat) : 0 < M ->
  (N.to_nat (h mod N.of_nat (2 * M)) = N.to_nat (h mod N.of_nat M) \/
   N.to_nat (h mod N.of_nat (2 * M)) = N.to_nat (h mod N.of_nat M) + M).
Proof.
  intros HM. rewrite !N2Nat.inj_mod, !Nat2N.id.
  rewrite (Nat.mul_comm 2 M).
  assert (N.to_nat h mod (M * 2) = N.to_nat h mod M + M * ((N.to_nat h / M) mod 2)) as ->
    by (apply Nat.mod_mul_r; lia).
  pose proof (Nat.mod_upper_bound (N.to_nat h / M) 2 ltac:(lia)).
  destruct ((N.to_nat h / M) mod 2) as [|[|]]; lia.
Qed.
Lemma mod_bound h M : 0 < M -> N.to_nat (h mod N.of_nat M) < M.
Proof. intros HM. rewrite N2Nat.inj_mod, Nat2N.id. apply Nat.mod_upper_bound. lia. Qed.

Lemma hb_bound B k : 1 <= B -> hb (npow2 (B + 1)) B k < B.
Proof.
  intros HB. destruct (npow2_bounds B HB) as [H1 H2]. unfold hash_to_bucket.
  set (M := npow2 (B + 1)) in *.
  pose proof (mod_bound (hc_hash c k) M ltac:(lia)).
  destruct (B <=? N.to_nat (hc_hash c k mod N.of_nat M)) eqn:E; [|apply Nat.leb_gt in E; auto].
  apply Nat.leb_le in E. lia.
Qed.

(* what one split does to the placement of keys *)
Lemma hb_split B k : 1 <= B ->
  let M := npow2 (B + 1) in let M' := npow2 (B + 1 + 1) in let sb := B - M / 2 in
  sb < B /\
  (hb M B k <> sb -> hb M' (B + 1) k = hb M B k) /\
  (hb M B k = sb -> hb M' (B + 1) k = sb \/ hb M' (B + 1) k = B).
Proof.
  intros HB M M' sb.
  destruct (npow2_bounds B HB) as [H1 H2]. pose proof (npow2_next B HB) as H3.
  fold M in H1, H2, H3. fold M' in H3. cbv zeta in H3. fold M M' in H3.
  assert (sb = B - M / 2) as Hsb by auto. clearbody sb.
  remember (M / 2) as Q eqn:HQ.
  split; [lia|].
  unfold hash_to_bucket. rewrite <- HQ.
  pose proof (mod_bound (hc_hash c k) M ltac:(lia)) as Hm.
  destruct H3 as [[H3 ->]|[H3 H4]].
  - rewrite <- HQ. set (r := N.to_nat (hc_hash c k mod N.of_nat M)) in *. clearbody r.
    destruct (B <=? r) eqn:E1; destruct (B + 1 <=? r) eqn:E2;
      rewrite ?Nat.leb_le, ?Nat.leb_gt in *; lia.
  - assert (M' / 2 = M) as -> by (rewrite H4, Nat.mul_comm; apply Nat.div_mul; lia).
    rewrite H4 at 1 2.
    pose proof (mod_step (hc_hash c k) M ltac:(lia)) as Hs.
    rewrite H4.
    set (r := N.to_nat (hc_hash c k mod N.of_nat M)) in *.
    set (r2 := N.to_nat (hc_hash c k mod N.of_nat (2 * M))) in *. clearbody r r2.
    destruct (B <=? r) eqn:E1; destruct (B + 1 <=? r2) eqn:E2;
      rewrite ?Nat.leb_le, ?Nat.leb_gt in *; lia.
Qed.
Lemma hb_split_new B k : 1 <= B ->
  let M := npow2 (B + 1) in let M' := npow2 (B + 1 + 1) in let sb := B - M / 2 in
  (hb M' (B + 1) k = sb \/ hb M' (B + 1) k = B) -> hb M B k = sb.
Proof.
  intros HB M M' sb H. destruct (hb_split B k HB) as [H1 [H2 H3]]. fold M M' sb in H1, H2, H3.
  destruct (Nat.eq_dec (hb M B k) sb); auto.
  specialize (H2 n). pose proof (hb_bound B k HB) as Hb. fold M in Hb. lia.
Qed.

(* ---------- the split loop ---------- *)
Lemma split_loop_spec md bk sb nb safe : sb <> nb ->
  forall l seen o x1 x2,
  odx_ok c o safe -> b_ovf x1 < o_end o -> b_ovf x2 < o_end o ->
  (forall k, find_key k l <> None -> hb md bk k = sb \/ hb md bk k = nb) ->
  exists o' x1' x2', split_loop c md bk sb nb seen l o x1 x2 = Some (o', x1', x2') /\
    odx_ok c o' safe /\ o_end o <= o_end o' /\ (forall q, q < o_end o -> o_cell o' q = o_cell o q) /\
    b_ovf x1' < o_end o' /\ b_ovf x2' < o_end o' /\
    snd (bucket_items o' x1') = snd (bucket_items o x1) /\ snd (bucket_items o' x2') = snd (bucket_items o x2) /\
    (forall k, find_key k (fst (bucket_items o' x1')) =
       if existsb (keqb k) seen then find_key k (fst (bucket_items o x1))
       else if hb md bk k =? sb then match find_key k l with Some p => Some p | None => find_key k (fst (bucket_items o x1)) end
       else find_key k (fst (bucket_items o x1))) /\
    (forall k, find_key k (fst (bucket_items o' x2')) =
       if existsb (keqb k) seen then find_key k (fst (bucket_items o x2))
       else if hb md bk k =? sb then find_key k (fst (bucket_items o x2))
       else match find_key k l with Some p => Some p | None => find_key k (fst (bucket_items o x2)) end).
Proof.
  intros Hne. induction l as [|[k p] l IH]; intros seen o x1 x2 Ho H1 H2 Hl.
  - exists o, x1, x2. simpl. split; auto. split; auto. split; auto. split; auto. split; auto. split; auto.
    split; auto. split; auto. split; intros k.
    + change (find_key k []) with (@None pos). destruct (existsb (keqb k) seen); auto. destruct (hb md bk k =? sb); auto.
    + change (find_key k []) with (@None pos). destruct (existsb (keqb k) seen); auto. destruct (hb md bk k =? sb); auto.
  - cbn [split_loop].
    assert (Hl' : forall k0, find_key k0 l <> None -> hb md bk k0 = sb \/ hb md bk k0 = nb).
    { intros k0 H. apply Hl. rewrite find_key_cons. destruct (keqb k k0); congruence. }
    destruct (existsb (keqb k) seen) eqn:Es.
    { destruct (IH seen o x1 x2 Ho H1 H2 Hl') as (o' & x1' & x2' & E & R1 & R2 & R3 & R4 & R5 & R6 & R7 & R8 & R9).
      exists o', x1', x2'. split; auto. split; auto. split; auto. split; auto. split; auto. split; auto.
      split; auto. split; auto. split; intros k0.
      - rewrite R8, find_key_cons. destruct (existsb (keqb k0) seen) eqn:E0; auto.
        destruct (keqb k k0) eqn:E1; auto. apply keqb_eq in E1; subst. congruence.
      - rewrite R9, find_key_cons. destruct (existsb (keqb k0) seen) eqn:E0; auto.
        destruct (keqb k k0) eqn:E1; auto. apply keqb_eq in E1; subst. congruence. }
    assert (Hk : hb md bk k = sb \/ hb md bk k = nb).
    { apply Hl. rewrite find_key_cons, keqb_refl. congruence. }
    assert (Hg : negb (hb md bk k =? sb) && negb (hb md bk k =? nb) = false).
    { destruct Hk as [-> | ->]; rewrite Nat.eqb_refl; simpl; auto. apply andb_false_r. }
    rewrite Hg.
    destruct (hb md bk k =? sb) eqn:Eb.
    + destruct (save_buf c o x1 k p) as [[x1s os] inc] eqn:Esv.
      destruct (save_buf_spec o safe x1 k p x1s os inc Ho H1 Esv) as (S1 & S2 & S3 & S4 & S5 & S6 & _).
      destruct (IH (k :: seen) os x1s x2 S1 S4 ltac:(lia) Hl') as (o' & x1' & x2' & E & R1 & R2 & R3 & R4 & R5 & R6 & R7 & R8 & R9).
      assert (Hi2 : bucket_items os x2 = bucket_items o x2) by (apply (items_agree o os (o_end o)); auto).
      exists o', x1', x2'. split; auto. split; auto. split; [lia|]. split.
      { intros q Hq. rewrite R3 by lia. auto. }
      split; auto. split; auto. split; [congruence|]. split; [congruence|]. split; intros k0.
      * rewrite R8, S6, find_key_cons. cbn [existsb].
        rewrite (keqb_sym k k0).
        destruct (keqb k0 k) eqn:E0; cbn [orb].
        { apply keqb_eq in E0; subst k0. rewrite Es, Eb. auto. }
        auto.
      * rewrite R9, Hi2, find_key_cons. cbn [existsb].
        rewrite (keqb_sym k k0).
        destruct (keqb k0 k) eqn:E0; cbn [orb].
        { apply keqb_eq in E0; subst k0. rewrite Es, Eb. auto. }
        auto.
    + destruct (save_buf c o x2 k p) as [[x2s os] inc] eqn:Esv.
      destruct (save_buf_spec o safe x2 k p x2s os inc Ho H2 Esv) as (S1 & S2 & S3 & S4 & S5 & S6 & _).
      destruct (IH (k :: seen) os x1 x2s S1 ltac:(lia) S4 Hl') as (o' & x1' & x2' & E & R1 & R2 & R3 & R4 & R5 & R6 & R7 & R8 & R9).
      assert (Hi1 : bucket_items os x1 = bucket_items o x1) by (apply (items_agree o os (o_end o)); auto).
      exists o', x1', x2'. split; auto. split; auto. split; [lia|]. split.
      { intros q Hq. rewrite R3 by lia. auto. }
      split; auto. split; auto. split; [congruence|]. split; [congruence|]. split; intros k0.
      * rewrite R8, Hi1, find_key_cons. cbn [existsb].
        rewrite (keqb_sym k k0).
        destruct (keqb k0 k) eqn:E0; cbn [orb].
        { apply keqb_eq in E0; subst k0. rewrite Es, Eb. auto. }
        auto.
      * rewrite R9, S6, find_key_cons. cbn [existsb].
        rewrite (keqb_sym k k0).
        destruct (keqb k0 k) eqn:E0; cbn [orb].
        { apply keqb_eq in E0; subst k0. rewrite Es, Eb. auto. }
        auto.
Qed.

(* ---------- the invariant ---------- *)
(* one bucket holds, under first match, what was last saved for the keys that hash to it *)
Definition bok (o : ofile) (n B M : nat) (sv : list elem) (full : bool) (b : nat) (x : bucket) : Prop :=
  b_ovf x < n /\
  (forall k, find_key k (fst (bucket_items o x)) <> None -> hb M B k = b) /\
  (forall k p, find_key k (fst (bucket_items o x)) = Some p -> find_key k sv = Some p) /\
  (full = true -> snd (bucket_items o x) = WDone /\
     forall k p, hb M B k = b -> find_key k sv = Some p -> find_key k (fst (bucket_items o x)) = Some p).

Definition cand (s : hdx) (b : nat) (x : bucket) : Prop :=
  aget (hx_dirty s) b = Some x \/
  (aget (hx_dirty s) b = None /\ (aget (hx_clean s) b = Some x \/ f_cell (hx_file s) b = CGood x)).

Definition bloom_ok (full : bool) (bl : list N) (sv : list elem) : Prop :=
  length bl = hc_bloom c /\ (full = true -> forall k, In k (map fst sv) -> bl_contains c bl k = true).
Definition count_ok (v : nat) (sv : list elem) : Prop := v <= length sv /\ exists d, distinct sv d /\ d <= v.

Record core (full : bool) (sv : list elem) (s : hdx) : Prop := {
  i_B : 1 <= hx_buckets s;
  i_M : hx_mod s = npow2 (hx_buckets s + 1);
  i_cap : hx_cap s = hx_buckets s * hc_elems c;
  i_odx : odx_ok c (hx_odx s) (hx_osafe s);
  i_nd : NoDup (map fst (hx_dirty s));
  i_bok : forall b x, b < hx_buckets s -> cand s b x ->
          bok (hx_odx s) (o_end (hx_odx s)) (hx_buckets s) (hx_mod s) sv full b x;
  i_full : full = true -> forall b, b < hx_buckets s -> aget (hx_dirty s) b = None -> exists x, f_cell (hx_file s) b = CGood x;
  i_cnt : count_ok (hx_values s) sv }.

Record snap (full : bool) (m : hmap) (f : hfile) (o : ofile) (safe : nat) : Prop := {
  n_B : 1 <= f_buckets f;
  n_bok : forall b x, b < f_buckets f -> f_cell f b = CGood x ->
          bok o safe (f_buckets f) (npow2 (f_buckets f + 1)) (m_saves m) full b x;
  n_full : full = true -> forall b, b < f_buckets f -> exists x, f_cell f b = CGood x;
  n_cnt : count_ok (f_values f) (m_saves m);
  n_bloom : bloom_ok full (f_bloom f) (m_saves m);
  n_dlen : f_dlen f = m_dlen m }.

Record inv (full : bool) (sp : hspec) (s : hdx) : Prop := {
  v_core : core full (m_saves (p_cur sp)) s;
  v_bloom : bloom_ok full (hx_bloom s) (m_saves (p_cur sp));
  v_dlen : hx_dlen s = m_dlen (p_cur sp);
  v_ro : hx_ro s = p_ro sp;
  v_syn : hx_ro s = false -> hx_synced s = true -> p_cur sp = p_safe sp;
  v_snap : snap full (p_safe sp) (hx_file s) (hx_odx s) (hx_osafe s) }.

Lemma bok_agree o o' n n' B M sv full b x :
  (forall q, q < n -> o_cell o' q = o_cell o q) -> n <= n' ->
  bok o n B M sv full b x -> bok o' n' B M sv full b x.
Proof.
  intros Ha Hn (H1 & H2 & H3 & H4). unfold bok.
  rewrite (items_agree o o' n x Ha H1). split; [lia|]. auto.
Qed.

Lemma snap_agree full m f o o' safe safe' :
  (forall q, q < safe -> o_cell o' q = o_cell o q) -> safe <= safe' ->
  snap full m f o safe -> snap full m f o' safe'.
Proof.
  intros Ha Hs [A1 A2 A3 A4 A5 A6]. constructor; auto.
  intros b x Hb Hx. eapply bok_agree; eauto.
Qed.

(* ---------- counting ---------- *)
Lemma count_ok_save v sv k p (inc : bool) :
  count_ok v sv -> (inc = false -> find_key k sv <> None) ->
  count_ok (if inc then v + 1 else v) ((k, p) :: sv).
Proof.
  intros [Hv [d [[ks [Hn [Hl Hin]]] Hd]]] Hi. split.
  - simpl. destruct inc; lia.
  - destruct (existsb (keqb k) ks) eqn:E.
    + exists d. split; [|destruct inc; lia]. exists ks. split; auto. split; auto.
      intros k'. rewrite Hin. simpl. split; auto. intros [<-|H]; auto.
      apply Hin. apply existsb_exists in E as [y [Hy Hk]]. apply keqb_eq in Hk; subst; auto.
    + exists (S d). assert (Hnk : ~ In k ks).
      { intros H. assert (existsb (keqb k) ks = true) by (apply existsb_exists; exists k; split; auto; apply keqb_refl). congruence. }
      split.
      * exists (k :: ks). split; [constructor; auto|]. split; [simpl; lia|].
        intros k'. simpl. rewrite Hin. tauto.
      * destruct inc; [lia|]. exfalso. apply Hnk. apply Hin. apply find_key_In. auto.
Qed.

(* ---------- bloom ---------- *)
Definition bit_set (bl : list N) (ix : nat) : Prop := N.land (nth (bl_byte c ix) bl 0%N) (bl_mask ix) <> 0%N.

Lemma upd_len {A} n (f : A -> A) l : length (upd n f l) = length l.
Proof. revert n; induction l as [|x l IH]; intros [|n]; simpl; auto. Qed.
Lemma nth_upd {A} n (f : A -> A) l m d : nth m (upd n f l) d = if (n =? m) && (n <? length l) then f (nth m l d) else nth m l d.
Proof.
  revert n m; induction l as [|x l IH]; intros n m.
  - simpl. rewrite andb_false_r. destruct n; auto.
  - destruct n as [|n], m as [|m]; simpl; auto. rewrite IH. reflexivity.
Qed.

Lemma bl_mask_pos ix : bl_mask ix <> 0%N.
Proof. unfold bl_mask. rewrite N.shiftl_1_l. apply N.pow_nonzero. lia. Qed.

Lemma bit_set_upd bl ix ix' :
  bit_set bl ix' -> bit_set (upd (bl_byte c ix) (fun x => N.lor x (bl_mask ix)) bl) ix'.
Proof.
  unfold bit_set. rewrite nth_upd. destruct ((bl_byte c ix =? bl_byte c ix') && (bl_byte c ix <? length bl)); auto.
  intros H. rewrite N.land_lor_distr_l. intros E. apply N.lor_eq_0_iff in E. tauto.
Qed.
Lemma bit_set_upd_same bl ix : length bl = hc_bloom c ->
  bit_set (upd (bl_byte c ix) (fun x => N.lor x (bl_mask ix)) bl) ix.
Proof.
  intros Hl. unfold bit_set. rewrite nth_upd, Nat.eqb_refl. pose proof (ho_bloom c OK).
  assert (bl_byte c ix <? length bl = true) as -> by (apply Nat.ltb_lt; unfold bl_byte; lia).
  simpl. rewrite N.land_lor_distr_l, N.land_diag. intros E. apply N.lor_eq_0_iff in E. destruct E as [_ E].
  apply (bl_mask_pos ix). auto.
Qed.

Lemma bl_contains_iff bl k :
  bl_contains c bl k = true <-> forall i, i < hc_bits c -> bit_set bl (bl_index c k i).
Proof.
  unfold bl_contains. rewrite forallb_forall. split.
  - intros H i Hi. specialize (H i ltac:(apply in_seq; lia)). cbv zeta in H.
    apply negb_true_iff, N.eqb_neq in H. exact H.
  - intros H i Hi. apply in_seq in Hi. cbv zeta. apply negb_true_iff, N.eqb_neq. apply H. lia.
Qed.

Lemma accrue_fold k is : forall bl, length bl = hc_bloom c ->
  let bl' := fold_left (fun bl i => let ix := bl_index c k i in upd (bl_byte c ix) (fun x => N.lor x (bl_mask ix)) bl) is bl in
  length bl' = hc_bloom c /\ (forall ix, bit_set bl ix -> bit_set bl' ix) /\
  (forall i, In i is -> bit_set bl' (bl_index c k i)).
Proof.
  induction is as [|i is IH]; intros bl Hl; cbn [fold_left].
  - cbv zeta. split; auto. split; auto. intros i [].
  - destruct (IH (upd (bl_byte c (bl_index c k i)) (fun x => N.lor x (bl_mask (bl_index c k i))) bl)) as (H1 & H2 & H3).
    { rewrite upd_len. auto. }
    cbv zeta. split; auto. split.
    + intros ix H. apply H2. apply bit_set_upd. auto.
    + intros j [<-|H]; [|auto]. apply H2. apply bit_set_upd_same. auto.
Qed.

Lemma bloom_ok_accrue full bl sv k p : bloom_ok full bl sv -> bloom_ok full (bl_accrue c bl k) ((k, p) :: sv).
Proof.
  intros [Hl Hc]. unfold bl_accrue. destruct (accrue_fold k (seq 0 (hc_bits c)) bl Hl) as (H1 & H2 & H3).
  split; auto. intros Hf k' Hin. apply bl_contains_iff. intros i Hi.
  simpl in Hin. destruct Hin as [<-|Hin].
  - apply H3. apply in_seq. lia.
  - apply H2. specialize (Hc Hf k' Hin). apply bl_contains_iff; auto.
Qed.

(* ---------- caches ---------- *)
Lemma evict_sub cached cl ff cl' ff' b x :
  evict cached cl ff = (cl', ff') -> aget cl' b = Some x -> aget cl b = Some x.
Proof.
  revert cl. induction ff as [|a ff IH]; intros cl; simpl; [intros H; injection H as <- <-; auto|].
  destruct (cached <=? S (length ff)); [|intros H; injection H as <- <-; auto].
  intros H Hx. specialize (IH _ H Hx). rewrite aget_arem in IH. destruct (a =? b); congruence.
Qed.
Lemma add_clean_fields s b x :
  exists cl ff, add_clean c s b x = with_caches s cl ff (hx_dirty s) /\
    (forall b' y, aget cl b' = Some y -> (b' = b /\ y = x) \/ (b' <> b /\ aget (hx_clean s) b' = Some y)).
Proof.
  unfold add_clean. destruct (evict (hc_cached c) (hx_clean s) (hx_fifo s)) as [cl ff] eqn:E.
  exists (aput cl b x), (ff ++ [b]). split; auto.
  intros b' y. rewrite aget_aput. destruct (b =? b') eqn:Eb.
  - apply Nat.eqb_eq in Eb. intros H; injection H as ->; auto.
  - apply Nat.eqb_neq in Eb. intros H. right. split; [auto|]. eapply evict_sub; eauto.
Qed.

(* remove_bucket only touches the caches of that bucket *)
Lemma remove_bucket_spec s b r s' : remove_bucket s b = (r, s') ->
  exists cl dr, s' = with_caches s cl (hx_fifo s) dr /\
    (forall b', b' <> b -> aget cl b' = aget (hx_clean s) b' /\ aget dr b' = aget (hx_dirty s) b') /\
    aget dr b = None /\ (NoDup (map fst (hx_dirty s)) -> NoDup (map fst dr)) /\
    (forall y, aget cl b = Some y -> aget (hx_clean s) b = Some y) /\
    match r with
    | inl x => cand s b x
    | inr _ => aget (hx_dirty s) b = None /\ (forall x, f_cell (hx_file s) b <> CGood x)
    end.
Proof.
  unfold remove_bucket, remove_cache.
  destruct (aget (hx_dirty s) b) as [x|] eqn:Ed.
  - intros H; injection H as <- <-. exists (hx_clean s), (arem (hx_dirty s) b). split; auto.
    split; [intros b' Hb'; rewrite aget_arem; assert (b =? b' = false) as -> by (apply Nat.eqb_neq; auto); auto|].
    split; [rewrite aget_arem, Nat.eqb_refl; auto|]. split; [intros; apply arem_NoDup; auto|].
    split; [auto|]. left; auto.
  - destruct (aget (hx_clean s) b) as [x|] eqn:Ec.
    + intros H; injection H as <- <-. exists (arem (hx_clean s) b), (hx_dirty s). split; auto.
      split; [intros b' Hb'; rewrite aget_arem; assert (b =? b' = false) as -> by (apply Nat.eqb_neq; auto); auto|].
      split; auto. split; auto. split; [intros y; rewrite aget_arem, Nat.eqb_refl; congruence|].
      right; auto.
    + assert (Hs : s = with_caches s (hx_clean s) (hx_fifo s) (hx_dirty s)) by (destruct s; auto).
      destruct (f_cell (hx_file s) b) as [x| |] eqn:Ef; intros H; injection H as <- <-;
        exists (hx_clean s), (hx_dirty s); (split; [exact Hs|]); (split; [auto|]); (split; [auto|]);
        (split; [auto|]); (split; [congruence|]).
      * right; auto.
      * split; auto. congruence.
      * split; auto. congruence.
Qed.

End Cfg.
