From Verif Require Import Util PbModel PbSpec.
Local Open Scope N_scope.

(** the ordered map built from a list of digests *)
Lemma im_insert_keys d l x : In x (keys (im_insert d l)) <-> x = fst d \/ In x (keys l).
Proof.
  unfold keys. induction l as [|y l IH]; cbn; [intuition congruence|].
  destruct (N.eqb_spec (fst y) (fst d)) as [E|E]; cbn; [|rewrite IH]; intuition congruence.
Qed.
Lemma im_collect_from_keys l acc x :
  In x (keys (fold_left (fun a d => im_insert d a) l acc)) <-> In x (keys acc) \/ In x (keys l).
Proof.
  revert acc; induction l as [|d l IH]; intros acc; cbn; [intuition|].
  rewrite IH, im_insert_keys. intuition congruence.
Qed.
Lemma im_collect_keys l x : In x (keys (im_collect l)) <-> In x (keys l).
Proof. unfold im_collect. rewrite im_collect_from_keys. cbn. tauto. Qed.
Lemma im_insert_len d l : (length (im_insert d l) <= S (length l))%nat.
Proof. induction l as [|y l IH]; cbn; [lia|]. destruct (fst y =? fst d); cbn; lia. Qed.
Lemma im_collect_from_len l acc :
  (length (fold_left (fun a d => im_insert d a) l acc) <= length acc + length l)%nat.
Proof.
  revert acc; induction l as [|d l IH]; intros acc; cbn; [lia|].
  specialize (IH (im_insert d acc)). pose proof (im_insert_len d acc). lia.
Qed.
Lemma im_collect_len l : (length (im_collect l) <= length l)%nat.
Proof. apply (im_collect_from_len l []). Qed.
Lemma im_insert_new d l : ~ In (fst d) (keys l) -> im_insert d l = l ++ [d].
Proof.
  induction l as [|y l IH]; cbn; intros H; [reflexivity|].
  destruct (N.eqb_spec (fst y) (fst d)) as [E|E]; [exfalso; apply H; left; exact E|].
  rewrite IH; [reflexivity|]. intros X; apply H; right; exact X.
Qed.
Lemma im_collect_from_nodup l acc : NoDup (keys (acc ++ l)) ->
  fold_left (fun a d => im_insert d a) l acc = acc ++ l.
Proof.
  revert acc; induction l as [|d l IH]; intros acc H; cbn; [rewrite app_nil_r; reflexivity|].
  rewrite im_insert_new.
  - rewrite IH; [rewrite <- app_assoc; reflexivity|]. rewrite <- app_assoc. exact H.
  - unfold keys in H. rewrite map_app in H. apply NoDup_app_elim in H. destruct H as (_ & _ & H).
    intros X. apply (H (fst d)); [exact X|left; reflexivity].
Qed.
Lemma im_collect_nodup l : NoDup (keys l) -> im_collect l = l.
Proof. intros H. apply (im_collect_from_nodup l []). exact H. Qed.

(** the map of tracked headers *)
Lemma in_tm_insert r h m x : bm_sorted m ->
  In x (tm_insert r h m) <-> x = (r, h) \/ (In x m /\ fst x <> r).
Proof.
  intros Hs. destruct x as [k v]. unfold tm_insert.
  rewrite <- (bm_lookup_In k v (bm_insert r h m) (bm_insert_sorted r h m Hs)).
  rewrite bm_lookup_insert by exact Hs. cbn [fst].
  destruct (N.eqb_spec k r) as [->|E].
  - split; [intros X; injection X as ->; left; reflexivity|intros [X|[_ X]]; [congruence|contradiction X; reflexivity]].
  - rewrite bm_lookup_In by exact Hs. split; [intros X; right; split; assumption|intros [X|[X _]]; [congruence|exact X]].
Qed.
Lemma in_tm_remove r m x : In x (tm_remove r m) <-> In x m /\ fst x <> r.
Proof.
  unfold tm_remove. rewrite filter_In. destruct (N.eqb_spec (fst x) r); cbn; intuition congruence.
Qed.
Lemma map_filter_fst {B} (f : N -> bool) (m : list (N * B)) :
  map fst (filter (fun x => f (fst x)) m) = filter f (map fst m).
Proof. induction m as [|x m IH]; cbn; [reflexivity|]. destruct (f (fst x)); cbn; congruence. Qed.
Lemma tm_remove_sorted r m : bm_sorted m -> bm_sorted (tm_remove r m).
Proof.
  unfold bm_sorted, bm_keys, tm_remove. intros H.
  rewrite (map_filter_fst (fun k => negb (k =? r)) m). apply StronglySorted_filter. exact H.
Qed.
Lemma tm_get_In r h m : bm_sorted m -> tm_get r m = Some h <-> In (r, h) m.
Proof. apply bm_lookup_In. Qed.

Lemma tm_upto_filter mx m : bm_sorted m -> tm_upto mx m = filter (fun x => fst x <=? mx) m.
Proof.
  unfold bm_sorted, bm_keys. induction m as [|[r h] m IH]; cbn; intros H; [reflexivity|].
  inversion H as [|? ? Hs Hf]; subst.
  destruct (N.ltb_spec mx r) as [L|L].
  - replace (r <=? mx) with false by (symmetry; apply N.leb_gt; exact L).
    symmetry.
    clear - L Hf. induction m as [|[r' h'] m IH]; [reflexivity|]. cbn.
    inversion Hf as [|? ? A B]; subst. replace (r' <=? mx) with false by (symmetry; apply N.leb_gt; lia).
    apply IH. exact B.
  - replace (r <=? mx) with true by (symmetry; apply N.leb_le; exact L). rewrite IH by exact Hs. reflexivity.
Qed.

(** removing a list of rounds *)
Definition rem_rounds (rs : list N) (m : tmap) : tmap := filter (fun x => negb (memN (fst x) rs)) m.
Lemma fold_remove (old m : tmap) :
  fold_left (fun t x => tm_remove (fst x) t) old m = rem_rounds (map fst old) m.
Proof.
  revert m; induction old as [|[r h] old IH]; intros m; cbn.
  - unfold rem_rounds. cbn. induction m; cbn; congruence.
  - rewrite IH. unfold rem_rounds, tm_remove. cbn [fst memN existsb].
    induction m as [|x m IHm]; cbn; [reflexivity|].
    destruct (N.eqb_spec (fst x) r); cbn; rewrite ?IHm; reflexivity.
Qed.
Lemma rem_rounds_sorted rs m : bm_sorted m -> bm_sorted (rem_rounds rs m).
Proof.
  unfold bm_sorted, bm_keys, rem_rounds. intros H.
  rewrite (map_filter_fst (fun k => negb (memN k rs)) m). apply StronglySorted_filter. exact H.
Qed.
Lemma in_rem_rounds rs m x : In x (rem_rounds rs m) <-> In x m /\ ~ In (fst x) rs.
Proof.
  unfold rem_rounds. rewrite filter_In, negb_true_iff, memN_nIn. reflexivity.
Qed.

(** the loop over the reported rounds *)
Definition take_done (rs : list N) (a : tmap * list bhdr) : tmap * list bhdr :=
  fold_left (fun acc r => let '(t, dn) := acc in
                          (tm_remove r t, match tm_get r t with Some h => dn ++ [h] | None => dn end)) rs a.
Lemma take_done_tracked rs m dn : fst (take_done rs (m, dn)) = rem_rounds rs m.
Proof.
  revert m dn; induction rs as [|r rs IH]; intros m dn; cbn.
  - unfold rem_rounds; cbn. induction m; cbn; congruence.
  - unfold take_done in IH. rewrite IH. unfold rem_rounds, tm_remove. cbn [memN existsb].
    induction m as [|x m IHm]; cbn; [reflexivity|].
    destruct (N.eqb_spec (fst x) r); cbn; rewrite ?IHm; reflexivity.
Qed.
Lemma take_done_In rs m dn h : bm_sorted m ->
  In h (snd (take_done rs (m, dn))) <-> In h dn \/ (exists r, In r rs /\ In (r, h) m).
Proof.
  revert m dn; induction rs as [|r rs IH]; intros m dn Hs; cbn.
  - split; [tauto|intros [X|(r & [] & _)]; exact X].
  - unfold take_done in IH. rewrite IH by (apply tm_remove_sorted; exact Hs).
    destruct (tm_get r m) as [g|] eqn:G.
    + apply tm_get_In in G; [|exact Hs]. rewrite in_app_iff. cbn [In]. split.
      * intros [[X|[<-|[]]]|(r' & X & Y)]; [left; exact X|right; exists r; split; [left; reflexivity|exact G]|].
        apply in_tm_remove in Y. right. exists r'. split; [right; exact X|apply Y].
      * intros [X|(r' & [<-|X] & Y)]; [left; left; exact X| |].
        { left; right; left. pose proof (proj2 (tm_get_In _ _ _ Hs) G). pose proof (proj2 (tm_get_In _ _ _ Hs) Y). congruence. }
        { destruct (N.eq_dec r' r) as [->|E].
          - left; right; left. pose proof (proj2 (tm_get_In _ _ _ Hs) G). pose proof (proj2 (tm_get_In _ _ _ Hs) Y). congruence.
          - right. exists r'. split; [exact X|]. apply in_tm_remove. split; [exact Y|exact E]. }
    + split.
      * intros [X|(r' & X & Y)]; [left; exact X|]. apply in_tm_remove in Y. right. exists r'. split; [right; exact X|apply Y].
      * intros [X|(r' & [<-|X] & Y)]; [left; exact X| |].
        { apply (tm_get_In _ _ _ Hs) in Y. congruence. }
        { destruct (N.eq_dec r' r) as [->|E]; [apply (tm_get_In _ _ _ Hs) in Y; congruence|].
          right. exists r'. split; [exact X|]. apply in_tm_remove. split; [exact Y|exact E]. }
Qed.
Lemma take_done_app rs m dn : exists l, snd (take_done rs (m, dn)) = dn ++ l.
Proof.
  revert m dn; induction rs as [|r rs IH]; intros m dn; cbn; [exists []; rewrite app_nil_r; reflexivity|].
  unfold take_done in IH. destruct (tm_get r m) as [g|].
  - destruct (IH (tm_remove r m) (dn ++ [g])) as (l & ->). exists (g :: l). rewrite <- app_assoc. reflexivity.
  - apply IH.
Qed.

Lemma fold_max_ge rs a x : (In x rs \/ x <= a) -> x <= fold_left N.max rs a.
Proof.
  revert a; induction rs as [|r rs IH]; intros a H; cbn; [destruct H as [[]|H]; exact H|].
  apply IH. destruct H as [[->|H]|H]; [right; lia|left; exact H|right; lia].
Qed.
Lemma fold_max_in rs a : fold_left N.max rs a = a \/ In (fold_left N.max rs a) rs.
Proof.
  revert a; induction rs as [|r rs IH]; intros a; cbn; [left; reflexivity|].
  destruct (IH (N.max a r)) as [E|E]; [|right; right; exact E].
  rewrite E. destruct (N.max_spec a r) as [[_ ->]|[_ ->]]; [right; left; reflexivity|left; reflexivity].
Qed.

(** a report in closed form *)
Definition given_up (rs : list N) (m : tmap) : tmap :=
  filter (fun x => negb (memN (fst x) rs) && (fst x <=? fold_left N.max rs 0)) m.
Definition still (rs : list N) (m : tmap) : tmap :=
  filter (fun x => negb (memN (fst x) rs) && (fold_left N.max rs 0 <? fst x)) m.
Lemma filter_filter' {A} (f g : A -> bool) l : filter f (filter g l) = filter (fun x => g x && f x) l.
Proof. induction l as [|x l IH]; cbn; [reflexivity|]. destruct (g x); cbn; [destruct (f x)|]; cbn; congruence. Qed.

Lemma process_committed_eq rs s : bm_sorted (b_tracked s) ->
  process_committed rs s =
  set_tracked s (flat_map (fun x => bh_payload (snd x)) (given_up rs (b_tracked s)) ++ b_queue s)
              (still rs (b_tracked s))
              (snd (take_done rs (b_tracked s, b_done s)))
              (b_requeued s ++ flat_map (fun x => bh_payload (snd x)) (given_up rs (b_tracked s))).
Proof.
  intros Hs. unfold process_committed.
  change (fold_left _ rs (b_tracked s, b_done s)) with (take_done rs (b_tracked s, b_done s)).
  destruct (take_done rs (b_tracked s, b_done s)) as [tr dn] eqn:E.
  pose proof (take_done_tracked rs (b_tracked s) (b_done s)) as T. rewrite E in T. cbn [fst] in T. subst tr. cbn [snd].
  rewrite tm_upto_filter by (apply rem_rounds_sorted; exact Hs).
  set (mx := fold_left N.max rs 0).
  assert (G : filter (fun x => fst x <=? mx) (rem_rounds rs (b_tracked s)) = given_up rs (b_tracked s)).
  { unfold rem_rounds, given_up. fold mx. rewrite filter_filter'. reflexivity. }
  rewrite G.
  assert (St : rem_rounds (map fst (given_up rs (b_tracked s))) (rem_rounds rs (b_tracked s)) = still rs (b_tracked s)).
  { unfold still, rem_rounds at 1. fold mx. unfold rem_rounds. rewrite filter_filter'. apply filter_ext_in.
    intros [r h] Hx. cbn [fst]. destruct (memN r rs) eqn:M; [reflexivity|]. cbn.
    destruct (N.ltb_spec mx r) as [L|L].
    - apply negb_true_iff, memN_nIn. intros X. apply in_map_iff in X as ([r' h'] & Er & X). cbn in Er; subst r'.
      unfold given_up in X. apply filter_In in X as [_ X]. cbn [fst] in X. fold mx in X.
      apply andb_true_iff in X as [_ X]. apply N.leb_le in X. lia.
    - apply negb_false_iff, memN_In, in_map_iff. exists (r, h). split; [reflexivity|].
      unfold given_up. apply filter_In. split; [exact Hx|]. cbn [fst]. rewrite M. fold mx. cbn. apply N.leb_le. exact L. }
  rewrite fold_remove, St.
  destruct (given_up rs (b_tracked s)) as [|x old] eqn:Go; cbn [flat_map app].
  - rewrite <- St, app_nil_r. f_equal. unfold rem_rounds at 2. cbn. unfold rem_rounds.
    clear. induction (b_tracked s) as [|x m IH]; cbn; [reflexivity|]. destruct (negb (memN (fst x) rs)); cbn; congruence.
  - reflexivity.
Qed.
