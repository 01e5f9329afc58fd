(** Assembling, writing and re-reading consensus outputs. *)
From Verif Require Import Util OutModel OutSpec.
Local Open Scope N_scope.

(* ---------- sorted sets and maps ---------- *)
Lemma fold_snoc {A} (l : list A) acc : fold_left (fun acc d => acc ++ [d]) l acc = acc ++ l.
Proof. revert acc; induction l as [|x l IH]; intros acc; simpl; [now rewrite app_nil_r|]. rewrite IH, <- app_assoc; auto. Qed.

Lemma batch_digests_named s : batch_digests s = named s.
Proof.
  unfold batch_digests, named.
  assert (H : forall hs acc, fold_left (fun acc h => fold_left (fun acc d => acc ++ [d]) (oh_payload h) acc) hs acc
              = acc ++ concat (map oh_payload hs)).
  { induction hs as [|h t IH]; intros acc; simpl; [now rewrite app_nil_r|]. rewrite IH, fold_snoc, <- app_assoc; auto. }
  apply H.
Qed.

Lemma num_primary_named s : num_primary_batches s = length (named s).
Proof.
  unfold num_primary_batches, named.
  assert (H : forall l n, fold_left (fun acc h => (acc + length (oh_payload h))%nat) l n
              = (n + length (concat (map oh_payload l)))%nat).
  { induction l as [|h t IH]; intros n; simpl; [lia|]. rewrite IH, app_length; lia. }
  rewrite H; auto.
Qed.

Lemma bset_put_in d m x : In x (bset_put d m) <-> x = d \/ In x m.
Proof.
  induction m as [|k t IH]; simpl; [intuition|].
  destruct (d <? k) eqn:E1; simpl; [intuition|].
  destruct (d =? k) eqn:E2; simpl.
  - apply N.eqb_eq in E2; subst; intuition.
  - rewrite IH; intuition.
Qed.

Definition ssorted (l : list N) := StronglySorted N.lt l.

Lemma bset_put_sorted d m : ssorted m -> ssorted (bset_put d m).
Proof.
  unfold ssorted. induction m as [|k t IH]; simpl; intros H.
  - repeat constructor.
  - inversion H as [|? ? Hs Hf]; subst.
    destruct (d <? k) eqn:E1.
    + apply N.ltb_lt in E1. constructor; auto. constructor; auto.
      rewrite Forall_forall in *. intros x Hx. specialize (Hf x Hx). lia.
    + destruct (d =? k) eqn:E2; auto.
      constructor; auto. rewrite Forall_forall in *. intros x Hx.
      apply bset_put_in in Hx. destruct Hx as [->|Hx]; auto. lia.
Qed.

Lemma bset_fold_in l acc x : In x (fold_left (fun acc d => bset_put d acc) l acc) <-> In x acc \/ In x l.
Proof. revert acc; induction l as [|d l IH]; intros acc; simpl; [intuition|]. rewrite IH, bset_put_in; intuition. Qed.
Lemma bset_fold_sorted l acc : ssorted acc -> ssorted (fold_left (fun acc d => bset_put d acc) l acc).
Proof. revert acc; induction l as [|d l IH]; intros acc H; simpl; auto. apply IH, bset_put_sorted, H. Qed.

Lemma batch_set_in s x : In x (batch_set s) <-> In x (named s).
Proof.
  unfold batch_set, named.
  assert (H : forall hs acc, In x (fold_left (fun acc h => fold_left (fun acc d => bset_put d acc) (oh_payload h) acc) hs acc)
             <-> In x acc \/ In x (concat (map oh_payload hs))).
  { induction hs as [|h t IH]; intros acc; simpl; [intuition|]. rewrite IH, bset_fold_in, in_app_iff; tauto. }
  rewrite H; simpl; tauto.
Qed.
Lemma batch_set_sorted s : ssorted (batch_set s).
Proof.
  unfold batch_set. assert (H : ssorted []) by constructor. revert H. generalize (@nil N).
  induction (sd_hdrs s) as [|h t IH]; intros acc H; simpl; auto. apply IH, bset_fold_sorted, H.
Qed.

Lemma sorted_ext a b : ssorted a -> ssorted b -> (forall x, In x a <-> In x b) -> a = b.
Proof.
  unfold ssorted. revert b; induction a as [|x a IH]; intros b Ha Hb H.
  - destruct b as [|y b]; auto. exfalso. apply (proj2 (H y)); left; auto.
  - destruct b as [|y b]; [exfalso; apply (proj1 (H x)); left; auto|].
    inversion Ha as [|? ? Ha1 Ha2]; inversion Hb as [|? ? Hb1 Hb2]; subst.
    rewrite Forall_forall in Ha2, Hb2.
    assert (x = y).
    { destruct (proj1 (H x) (or_introl eq_refl)) as [E|E]; auto.
      destruct (proj2 (H y) (or_introl eq_refl)) as [E'|E']; auto.
      specialize (Ha2 _ E'). specialize (Hb2 _ E). lia. }
    subst y. f_equal. apply IH; auto. intros z. split; intros Hz.
    + destruct (proj1 (H z) (or_intror Hz)) as [->|]; auto. specialize (Ha2 _ Hz). lia.
    + destruct (proj2 (H z) (or_intror Hz)) as [->|]; auto. specialize (Hb2 _ Hz). lia.
Qed.

Lemma bmap_put_fst d b m : map fst (bmap_put d b m) = bset_put d (map fst m).
Proof.
  induction m as [|[k v] t IH]; simpl; auto.
  destruct (d <? k); simpl; auto. destruct (d =? k) eqn:E; simpl; [apply N.eqb_eq in E; subst; auto|].
  rewrite IH; auto.
Qed.
Lemma bmap_put_in d b m p : In p (bmap_put d b m) -> p = (d, b) \/ In p m.
Proof.
  induction m as [|[k v] t IH]; simpl; [intuition|].
  destruct (d <? k); simpl; [intuition|]. destruct (d =? k); simpl; intuition.
Qed.

Section O.
Variable bd : N -> N.
Variable addr : N -> option N.

(* ---------- association maps ---------- *)
Lemma amap_del_get d d' m : amap_get d' (amap_del d m) = if d' =? d then None else amap_get d' m.
Proof.
  induction m as [|[k b] t IH]; simpl; [destruct (d' =? d); auto|].
  destruct (k =? d) eqn:E; simpl.
  - apply N.eqb_eq in E; subst. rewrite IH. destruct (d' =? d) eqn:E'; auto.
    destruct (d =? d') eqn:E2; auto. apply N.eqb_eq in E2; subst. rewrite N.eqb_refl in E'; discriminate E'.
  - destruct (k =? d') eqn:E2; auto. apply N.eqb_eq in E2; subst. rewrite E; auto.
Qed.
Lemma amap_put_get d b d' m : amap_get d' (amap_put d b m) = if d' =? d then Some b else amap_get d' m.
Proof. unfold amap_put; simpl. rewrite (N.eqb_sym d d'), amap_del_get. destruct (d' =? d); auto. Qed.

Definition consistent (m : list (N * N)) := forall d b, amap_get d m = Some b -> bd b = d.

Lemma amap_fold_get answer d :
  forall m, amap_get d (fold_left (fun m p => amap_put (fst p) (snd p) m) answer m) =
    match amap_get d (rev answer) with Some b => Some b | None => amap_get d m end.
Proof.
  assert (app_get : forall a b x, amap_get x (a ++ b) = match amap_get x a with Some v => Some v | None => amap_get x b end).
  { induction a as [|[k v] a IH]; intros b x; simpl; auto. destruct (k =? x); auto. }
  induction answer as [|[k b] t IH]; intros m; simpl; auto.
  rewrite IH, app_get, amap_put_get, (N.eqb_sym d k); simpl. destruct (amap_get d (rev t)); auto.
  destruct (k =? d); auto.
Qed.
Lemma amap_get_in d b m : amap_get d m = Some b -> In (d, b) m.
Proof.
  induction m as [|[k v] t IH]; simpl; try (intros H; discriminate H).
  destruct (k =? d) eqn:E; auto. intros H; injection H as ->. apply N.eqb_eq in E; subst; auto.
Qed.
Lemma amap_get_some d m : In d (map fst m) -> exists b, amap_get d m = Some b.
Proof.
  induction m as [|[k v] t IH]; simpl; [tauto|]. intros [->|H].
  - rewrite N.eqb_refl; eauto.
  - destruct (k =? d); eauto.
Qed.

(* ---------- assembling ---------- *)
Definition uniq (l : list N) := forall a b, In a l -> In b l -> bd a = bd b -> a = b.
(** what holds while assembling: the map is keyed by digest, and disjoint from what was used *)
Definition asm_inv (avail : list (N * N)) (acc : list N) :=
  consistent avail /\ uniq acc /\ (forall d b, amap_get d avail = Some b -> forall x, In x acc -> bd x <> d).

Lemma asm_inv_take avail acc d b :
  asm_inv avail acc -> amap_get d avail = Some b -> asm_inv (amap_del d avail) (acc ++ [b]).
Proof.
  intros [Hc [Hu Hd]] G. pose proof (Hc _ _ G) as Eb. split; [|split].
  - intros d' b'. rewrite amap_del_get. destruct (d' =? d); [intros H; discriminate H|apply Hc].
  - intros x y Hx Hy E. apply in_app_iff in Hx; apply in_app_iff in Hy; simpl in *.
    destruct Hx as [Hx|[<-|[]]]; destruct Hy as [Hy|[<-|[]]]; auto.
    + exfalso. apply (Hd d b G x Hx). congruence.
    + exfalso. apply (Hd d b G y Hy). congruence.
  - intros d' b'. rewrite amap_del_get. destruct (d' =? d) eqn:E; [intros H; discriminate H|].
    intros G' x Hx. apply in_app_iff in Hx; simpl in Hx. destruct Hx as [Hx|[<-|[]]].
    + eapply Hd; eauto.
    + apply N.eqb_neq in E. congruence.
Qed.
Lemma asm_inv_clone avail acc b : asm_inv avail acc -> In b acc -> asm_inv avail (acc ++ [b]).
Proof.
  intros [Hc [Hu Hd]] Hb. split; [auto|split].
  - intros x y Hx Hy E. apply in_app_iff in Hx; apply in_app_iff in Hy; simpl in *.
    destruct Hx as [Hx|[<-|[]]]; destruct Hy as [Hy|[<-|[]]]; auto.
  - intros d' b' G x Hx. apply in_app_iff in Hx; simpl in Hx. destruct Hx as [Hx|[<-|[]]]; eapply Hd; eauto.
Qed.

Lemma assemble_header_ok guard done payload : forall avail cert avail' cert',
  asm_inv avail (flat_map cb_batches done ++ cert) ->
  assemble_header bd guard done payload avail cert = Some (avail', cert') ->
  asm_inv avail' (flat_map cb_batches done ++ cert') /\
  map bd cert' = map bd cert ++ payload /\
  (forall x, In x cert' -> In x (flat_map cb_batches done ++ cert) \/ exists d, amap_get d avail = Some x) /\
  (forall d x, amap_get d avail' = Some x -> amap_get d avail = Some x).
Proof.
  induction payload as [|d rest IH]; intros avail cert avail' cert' I H; simpl in H.
  - injection H as <- <-. rewrite app_nil_r. split; [auto|split; [auto|split; [intros x Hx; left; apply in_app_iff; auto|auto]]].
  - destruct (amap_get d avail) as [b|] eqn:G.
    + assert (I' := asm_inv_take _ _ _ _ I G). rewrite <- app_assoc in I'.
      destruct (IH _ _ _ _ I' H) as [A [B [C D]]]. split; [exact A|split; [|split]].
      * rewrite B, map_app, <- app_assoc; simpl. f_equal. f_equal. apply (proj1 I _ _ G).
      * intros x Hx. destruct (C x Hx) as [Hx'|[d' G']].
        { rewrite app_assoc in Hx'. apply in_app_iff in Hx'; simpl in Hx'. destruct Hx' as [?|[<-|[]]]; eauto. }
        { rewrite amap_del_get in G'. destruct (d' =? d); [discriminate G'|eauto]. }
      * intros d' x G'. apply D in G'. rewrite amap_del_get in G'. destruct (d' =? d); [discriminate G'|auto].
    + destruct (guard d); [|discriminate H].
      destruct (find _ _) as [b|] eqn:F; [|discriminate H].
      apply find_some in F. destruct F as [F1 F2]. apply N.eqb_eq in F2.
      assert (I' := asm_inv_clone _ _ _ I F1). rewrite <- app_assoc in I'.
      destruct (IH _ _ _ _ I' H) as [A [B [C D]]]. split; [exact A|split; [|split]].
      * rewrite B, map_app, <- app_assoc; simpl. rewrite F2; auto.
      * intros x Hx. destruct (C x Hx) as [Hx'|[d' G']]; eauto.
        rewrite app_assoc in Hx'. apply in_app_iff in Hx'; simpl in Hx'. destruct Hx' as [?|[<-|[]]]; auto.
      * auto.
Qed.

Definition fits (h : ohdr) (cb : cbatch) : Prop :=
  addr (oh_author h) = Some (cb_addr cb) /\ map bd (cb_batches cb) = oh_payload h.

Lemma assemble_ok guard hs : forall avail done bs,
  asm_inv avail (flat_map cb_batches done) ->
  assemble bd addr guard hs avail done = Some bs ->
  exists new, bs = done ++ new /\ Forall2 fits hs new /\ uniq (flat_map cb_batches bs) /\
    (forall x, In x (flat_map cb_batches new) -> In x (flat_map cb_batches done) \/ exists d, amap_get d avail = Some x).
Proof.
  induction hs as [|h t IH]; intros avail done bs I H; simpl in H.
  - injection H as <-. exists []. rewrite app_nil_r. split; [auto|split; [constructor|split; [apply I|simpl; tauto]]].
  - destruct (assemble_header bd guard done (oh_payload h) avail []) as [[avail' cert]|] eqn:E; [|discriminate H].
    destruct (addr (oh_author h)) as [a|] eqn:Ea; [|discriminate H].
    assert (I0 : asm_inv avail (flat_map cb_batches done ++ [])) by (rewrite app_nil_r; auto).
    destruct (assemble_header_ok _ _ _ _ _ _ _ I0 E) as [A [B [C D]]].
    assert (I1 : asm_inv avail' (flat_map cb_batches (done ++ [{| cb_addr := a; cb_batches := cert |}]))).
    { rewrite flat_map_app; simpl. rewrite app_nil_r; auto. }
    destruct (IH _ _ _ I1 H) as [new [E2 [F2 [U2 V2]]]].
    exists ({| cb_addr := a; cb_batches := cert |} :: new).
    split; [rewrite E2, <- app_assoc; auto|]. split; [|split; auto].
    + constructor; auto. split; simpl; auto.
    + intros x Hx. simpl in Hx. apply in_app_iff in Hx. destruct Hx as [Hx|Hx].
      * destruct (C x Hx) as [Hx'|?]; auto. rewrite app_nil_r in Hx'; auto.
      * destruct (V2 x Hx) as [Hx'|[d G]].
        { rewrite flat_map_app in Hx'; simpl in Hx'. rewrite app_nil_r in Hx'. apply in_app_iff in Hx'.
          destruct Hx' as [?|Hx']; auto. destruct (C x Hx') as [Hx''|?]; auto. rewrite app_nil_r in Hx''; auto. }
        { right; exists d. eapply D; eauto. }
Qed.

(** Assembling succeeds when every named digest is available and every author is known. *)
Definition covered (avail : list (N * N)) (acc : list N) (d : N) :=
  (exists b, amap_get d avail = Some b) \/ In d (map bd acc).

Lemma assemble_header_total guard done payload : forall avail cert,
  asm_inv avail (flat_map cb_batches done ++ cert) ->
  (forall d, In d payload -> covered avail (flat_map cb_batches done ++ cert) d) ->
  (forall d, In d payload -> guard d = true) ->
  exists r, assemble_header bd guard done payload avail cert = Some r /\
    (forall d, covered avail (flat_map cb_batches done ++ cert) d -> covered (fst r) (flat_map cb_batches done ++ snd r) d).
Proof.
  induction payload as [|d rest IH]; intros avail cert I Hc Hg; simpl.
  - eexists; split; [eauto|]; simpl; auto.
  - destruct (amap_get d avail) as [b|] eqn:G.
    + assert (I' := asm_inv_take _ _ _ _ I G). rewrite <- app_assoc in I'.
      assert (K : forall d', covered avail (flat_map cb_batches done ++ cert) d' ->
                  covered (amap_del d avail) (flat_map cb_batches done ++ cert ++ [b]) d').
      { intros d' [[b' G']|H'].
        - destruct (d' =? d) eqn:E.
          + apply N.eqb_eq in E; subst. right. rewrite app_assoc, map_app, in_app_iff. right; left. apply (proj1 I _ _ G).
          + left; exists b'. rewrite amap_del_get, E; auto.
        - right. rewrite app_assoc, map_app, in_app_iff; auto. }
      destruct (IH _ _ I') as [r [R1 R2]].
      * intros d' Hd'. apply K, Hc; right; auto.
      * intros d' Hd'; apply Hg; right; auto.
      * exists r; split; auto.
    + rewrite (Hg d (or_introl eq_refl)).
      destruct (Hc d (or_introl eq_refl)) as [[b' G']|H']; [congruence|].
      destruct (find (fun b => bd b =? d) (flat_map cb_batches done ++ cert)) as [b|] eqn:F.
      * apply find_some in F. destruct F as [F1 F2].
        assert (I' := asm_inv_clone _ _ _ I F1). rewrite <- app_assoc in I'.
        assert (K : forall d', covered avail (flat_map cb_batches done ++ cert) d' ->
                  covered avail (flat_map cb_batches done ++ cert ++ [b]) d').
        { intros d' [?|?]; [left; auto|right]. rewrite app_assoc, map_app, in_app_iff; auto. }
        destruct (IH _ _ I') as [r [R1 R2]].
        { intros d' Hd'. apply K, Hc; right; auto. }
        { intros d' Hd'; apply Hg; right; auto. }
        exists r; split; auto.
      * exfalso. apply in_map_iff in H'. destruct H' as [b [E Hb]].
        apply (find_none _ _ F) in Hb. rewrite E, N.eqb_refl in Hb; discriminate Hb.
Qed.

Lemma assemble_total guard hs : forall avail done,
  asm_inv avail (flat_map cb_batches done) ->
  (forall h, In h hs -> addr (oh_author h) <> None) ->
  (forall d, In d (concat (map oh_payload hs)) -> covered avail (flat_map cb_batches done) d) ->
  (forall d, In d (concat (map oh_payload hs)) -> guard d = true) ->
  exists bs, assemble bd addr guard hs avail done = Some bs.
Proof.
  induction hs as [|h t IH]; intros avail done I Ha Hc Hg; simpl; eauto.
  assert (I0 : asm_inv avail (flat_map cb_batches done ++ [])) by (rewrite app_nil_r; auto).
  destruct (assemble_header_total guard done (oh_payload h) avail [] I0) as [[avail' cert] [E K]].
  - intros d Hd. rewrite app_nil_r. apply Hc. simpl; apply in_app_iff; auto.
  - intros d Hd. apply Hg. simpl; apply in_app_iff; auto.
  - rewrite E. destruct (addr (oh_author h)) as [a|] eqn:Ea; [|exfalso; apply (Ha h (or_introl eq_refl)); auto].
    destruct (assemble_header_ok _ _ _ _ _ _ _ I0 E) as [A _].
    apply IH.
    + rewrite flat_map_app; simpl. rewrite app_nil_r; auto.
    + intros h' Hh; apply Ha; right; auto.
    + intros d Hd. rewrite flat_map_app; simpl. rewrite app_nil_r. rewrite app_nil_r in K. apply K, Hc. simpl; apply in_app_iff; auto.
    + intros d Hd. apply Hg. simpl; apply in_app_iff; auto.
Qed.

(* ---------- the subscriber's assembly ---------- *)
(** the worker's answer pairs every batch with its own digest *)
Definition honest_answer (answer : list (N * N)) := forall d b, In (d, b) answer -> bd b = d.

Lemma fetched_inv answer :
  honest_answer answer ->
  asm_inv (fold_left (fun m p => amap_put (fst p) (snd p) m) answer []) [].
Proof.
  intros H. split; [|split].
  - intros d b G. rewrite amap_fold_get in G. destruct (amap_get d (rev answer)) eqn:E; [|discriminate G].
    injection G as ->. apply H, in_rev, amap_get_in, E.
  - intros a b [].
  - intros d b _ x [].
Qed.

Lemma named_nil_len s : Nat.eqb (num_primary_batches s) 0 = true <-> named s = [].
Proof. rewrite num_primary_named, Nat.eqb_eq. split; [apply length_zero_iff_nil|intros ->; auto]. Qed.

Lemma fetch_batches_ok fetch s parent num o :
  (forall set answer, fetch set = Some answer -> honest_answer answer) ->
  fetch_batches bd addr fetch s parent num = Some o ->
  output_for bd addr s parent num o /\ one_batch_per_digest bd o /\
  (forall x, In x (flat_map cb_batches (out_batches o)) -> exists answer d, fetch (batch_set s) = Some answer /\ In (d, x) answer).
Proof.
  intros Hf H. unfold fetch_batches in H.
  destruct (Nat.eqb (num_primary_batches s) 0) eqn:E.
  - apply named_nil_len in E. injection H as <-. unfold output_for, one_batch_per_digest; simpl.
    rewrite E. split; [|split; [tauto|tauto]]. repeat (split; auto). intros; congruence.
  - destruct (fetch (batch_set s)) as [answer|] eqn:F; [|discriminate H].
    set (m := fold_left _ answer []) in H.
    destruct (assemble _ _ _ _ _ _) as [bs|] eqn:A; [|discriminate H].
    injection H as <-. pose proof (fetched_inv answer (Hf _ _ F)) as I.
    destruct (assemble_ok _ _ _ [] _ I A) as [new [En [Fn [Un Vn]]]]. simpl in En; subst new.
    assert (Hn : named s <> []). { intro C. apply named_nil_len in C. congruence. }
    split; [|split].
    + unfold output_for; simpl. rewrite batch_digests_named. repeat (split; auto). intros; contradiction.
    + exact Un.
    + simpl. intros x Hx. destruct (Vn x Hx) as [[]|[d G]].
      exists answer, d. split; auto. rewrite amap_fold_get in G.
      destruct (amap_get d (rev answer)) eqn:E'; [|discriminate G]. injection G as ->.
      apply in_rev, amap_get_in, E'.
Qed.

Lemma fetch_batches_total fetch s parent num :
  (forall set answer, fetch set = Some answer -> honest_answer answer) ->
  ((exists o, fetch_batches bd addr fetch s parent num = Some o) <->
   named s = [] \/
   ((forall h, In h (sd_hdrs s) -> addr (oh_author h) <> None) /\
    exists answer, fetch (batch_set s) = Some answer /\ forall d, In d (named s) -> In d (map fst answer))).
Proof.
  intros Hf. split.
  - intros [o H]. destruct (list_eq_dec N.eq_dec (named s) []) as [|Hn]; [left; auto|right].
    destruct (fetch_batches_ok _ _ _ _ _ Hf H) as [[_ [_ [_ [_ [_ F2]]]]] [_ V]]. specialize (F2 Hn).
    assert (Hh : Forall (fun h => addr (oh_author h) <> None) (sd_hdrs s)).
    { clear V. induction F2 as [|h cb hs cbs [A _] _ IH]; constructor; auto. rewrite A; intro C; discriminate C. }
    split; [apply Forall_forall; auto|].
    assert (Hd : forall d, In d (named s) -> exists x, In x (flat_map cb_batches (out_batches o)) /\ bd x = d).
    { unfold named. clear V Hh. induction F2 as [|h cb hs cbs [_ B] _ IH]; simpl; [tauto|].
      intros d Hd. apply in_app_iff in Hd. destruct Hd as [Hd|Hd].
      - rewrite <- B in Hd. apply in_map_iff in Hd. destruct Hd as [x [E Hx]]. exists x. rewrite in_app_iff; auto.
      - destruct (IH d Hd) as [x [Hx E]]. exists x. rewrite in_app_iff; auto. }
    destruct (named s) as [|d0 t] eqn:En; [congruence|].
    destruct (Hd d0 (or_introl eq_refl)) as [x0 [Hx0 _]].
    destruct (V _ Hx0) as [answer [_ [Fa _]]]. exists answer; split; auto.
    intros d Hin. destruct (Hd d Hin) as [x [Hx E]]. destruct (V _ Hx) as [answer' [d' [Fa' Hin']]].
    assert (answer' = answer) by congruence. subst answer'.
    apply in_map_iff. exists (d', x). split; auto. simpl. rewrite <- (Hf _ _ Fa _ _ Hin'). auto.
  - intros [Hn|[Ha [answer [Fa Hc]]]]; unfold fetch_batches.
    + apply named_nil_len in Hn. rewrite Hn; eauto.
    + destruct (Nat.eqb (num_primary_batches s) 0); eauto. rewrite Fa.
      set (m := fold_left _ answer []).
      destruct (assemble_total (fun _ => true) (sd_hdrs s) m [] (fetched_inv answer (Hf _ _ Fa)) Ha) as [bs E].
      * intros d Hd. left. unfold m. rewrite amap_fold_get.
        destruct (amap_get_some d (rev answer)) as [b G].
        { rewrite map_rev. apply in_rev. rewrite rev_involutive. apply Hc, Hd. }
        rewrite G; eauto.
      * auto.
      * rewrite E; eauto.
Qed.

(** Two outputs of one sub-dag at one place hold the same batches when digests name batches. *)
Lemma output_for_unique s parent num o1 o2 :
  (forall a b, In a (flat_map cb_batches (out_batches o1)) -> In b (flat_map cb_batches (out_batches o2)) -> bd a = bd b -> a = b) ->
  output_for bd addr s parent num o1 -> output_for bd addr s parent num o2 -> o1 = o2.
Proof.
  intros Hinj [A1 [A2 [A3 [A4 [A5 A6]]]]] [B1 [B2 [B3 [B4 [B5 B6]]]]].
  destruct o1 as [s1 p1 n1 d1 b1], o2 as [s2 p2 n2 d2 b2]; simpl in *.
  assert (b1 = b2) as ->; [|congruence].
  destruct (list_eq_dec N.eq_dec (named s) []) as [Hn|Hn].
  - rewrite A5, B5; auto.
  - specialize (A6 Hn). specialize (B6 Hn). clear A1 A4 A5 B1 B4 B5 Hn.
    revert b2 B6 Hinj. induction A6 as [|h cb hs cbs [X1 X2] F IH]; intros b2 B6 Hinj; inversion B6 as [|? cb2 ? cbs2 [Y1 Y2] F2]; subst; auto.
    f_equal.
    + destruct cb as [a1 l1], cb2 as [a2 l2]; simpl in *. f_equal; [congruence|].
      rewrite <- Y2 in X2. clear F IH F2 B6 X1 Y1 Y2.
      assert (Hi : forall a b, In a l1 -> In b l2 -> bd a = bd b -> a = b).
      { intros a b Ha Hb. apply Hinj; apply in_app_iff; auto. }
      clear Hinj. revert l2 X2 Hi. induction l1 as [|x l1 IH]; intros [|y l2] X2 Hi; simpl in X2; auto; try discriminate X2.
      injection X2 as E1 E2. f_equal; [apply Hi; simpl; auto|apply IH; auto].
      intros a b Ha Hb; apply Hi; simpl; auto.
    + apply IH; auto. intros a b Ha Hb; apply Hinj; simpl; apply in_app_iff; auto.
Qed.

(* ---------- writing and reading back ---------- *)
Lemma collect_fst o :
  map fst (collect_batches bd o) =
  fold_left (fun acc cb => fold_left (fun acc b => bset_put (bd b) acc) (cb_batches cb) acc) (out_batches o) [].
Proof.
  unfold collect_batches. change (@nil N) with (map fst (@nil (N * N))) at 1. generalize (@nil (N * N)).
  induction (out_batches o) as [|cb t IH]; intros m; simpl; auto. rewrite IH. f_equal.
  clear. revert m. induction (cb_batches cb) as [|b l IH]; intros m; simpl; auto. rewrite IH, bmap_put_fst; auto.
Qed.
Lemma collect_in o p : In p (collect_batches bd o) -> fst p = bd (snd p) /\ In (snd p) (flat_map cb_batches (out_batches o)).
Proof.
  unfold collect_batches.
  assert (H : forall cbs m (P : N * N -> Prop), (forall q, In q m -> P q) ->
     (forall b, In b (flat_map cb_batches cbs) -> P (bd b, b)) ->
     forall q, In q (fold_left (fun m cb => fold_left (fun m b => bmap_put (bd b) b m) (cb_batches cb) m) cbs m) -> P q).
  { induction cbs as [|cb t IH]; intros m P Hm Hb q Hq; simpl in *; auto.
    eapply IH; [| |exact Hq].
    - assert (H0 : forall l m, (forall q, In q m -> P q) -> (forall b, In b l -> P (bd b, b)) ->
               forall q, In q (fold_left (fun m b => bmap_put (bd b) b m) l m) -> P q).
      { clear. induction l as [|b l IH]; intros m Hm Hb q Hq; simpl in *; auto.
        eapply IH; [| |exact Hq]; auto. intros q' Hq'. apply bmap_put_in in Hq'. destruct Hq' as [->|]; auto. }
      intros q' Hq'. eapply H0; [exact Hm| |exact Hq']. intros b Hb'. apply Hb, in_app_iff; auto.
    - intros b Hb'. apply Hb, in_app_iff; auto. }
  revert p. apply H; simpl; [tauto|]. intros b Hb; simpl; auto.
Qed.
Lemma bset_folds_in cbs : forall acc x,
  In x (fold_left (fun acc cb => fold_left (fun acc b => bset_put (bd b) acc) (cb_batches cb) acc) cbs acc)
  <-> In x acc \/ In x (map bd (flat_map cb_batches cbs)).
Proof.
  assert (H0 : forall l acc x, In x (fold_left (fun acc b => bset_put (bd b) acc) l acc) <-> In x acc \/ In x (map bd l)).
  { induction l as [|b l IH]; intros acc x; simpl; [tauto|]. rewrite IH, bset_put_in. intuition. }
  induction cbs as [|cb t IH]; intros acc x; simpl; [tauto|]. rewrite IH, H0, map_app, in_app_iff; tauto.
Qed.
Lemma bset_folds_sorted cbs : forall acc, ssorted acc ->
  ssorted (fold_left (fun acc cb => fold_left (fun acc b => bset_put (bd b) acc) (cb_batches cb) acc) cbs acc).
Proof.
  assert (H0 : forall l acc, ssorted acc -> ssorted (fold_left (fun acc b => bset_put (bd b) acc) l acc)).
  { induction l as [|b l IH]; intros acc H; simpl; auto. apply IH, bset_put_sorted, H. }
  induction cbs as [|cb t IH]; intros acc H; simpl; auto.
Qed.

Lemma named_digests hs cbs : Forall2 fits hs cbs -> map bd (flat_map cb_batches cbs) = concat (map oh_payload hs).
Proof. induction 1 as [|h cb hs cbs [_ B] _ IH]; simpl; auto. rewrite map_app, B, IH; auto. Qed.

Lemma collect_keys s parent num o :
  output_for bd addr s parent num o -> named s <> [] -> map fst (collect_batches bd o) = batch_set s.
Proof.
  intros [_ [_ [_ [_ [_ F]]]]] Hn. specialize (F Hn). rewrite collect_fst. apply sorted_ext.
  - apply bset_folds_sorted. constructor.
  - apply batch_set_sorted.
  - intros x. rewrite bset_folds_in, batch_set_in. unfold named. rewrite (named_digests _ _ F). simpl; tauto.
Qed.

Lemma read_batches_written m rest : forall avail refd,
  m <> [] ->
  (forall p, In p m -> fst p = bd (snd p)) ->
  exists avail' refd',
    read_batches bd (map fst m) (map (fun p => RBatch (snd p)) m ++ rest) avail refd = Some (avail', refd', rest) /\
    (forall d, In d (map fst m) -> In d refd') /\ (forall d, In d refd -> In d refd') /\
    (forall d b, amap_get d avail' = Some b -> In (d, b) m \/ amap_get d avail = Some b) /\
    (forall d, In d (map fst m) -> exists b, amap_get d avail' = Some b) /\
    (forall d b, amap_get d avail = Some b -> exists b', amap_get d avail' = Some b').
Proof.
  induction m as [|[d b] t IH]; intros avail refd Hne Hk; [congruence|]. simpl.
  pose proof (Hk (d, b) (or_introl eq_refl)) as E; simpl in E. subst d. rewrite N.eqb_refl.
  destruct t as [|p t].
  - simpl. eexists _, _. split; [reflexivity|]. split; [|split; [|split; [|split]]].
    + intros d [<-|[]]; left; auto.
    + intros d Hd; right; auto.
    + intros d b'. change (amap_get d ((bd b, b) :: amap_del (bd b) avail)) with (amap_get d (amap_put (bd b) b avail)).
      rewrite amap_put_get. destruct (d =? bd b) eqn:E; auto. intros H; injection H as <-. apply N.eqb_eq in E; subst; auto.
    + intros d [<-|[]]. exists b. change (amap_get (bd b) (amap_put (bd b) b avail) = Some b). rewrite amap_put_get, N.eqb_refl; auto.
    + intros d b' G. change (exists b', amap_get d (amap_put (bd b) b avail) = Some b'). rewrite amap_put_get. destruct (d =? bd b); eauto.
  - set (t' := p :: t) in *.
    destruct (IH (amap_put (bd b) b avail) (bd b :: refd)) as [avail' [refd' [R [K1 [K2 [K3 [K4 K5]]]]]]].
    { discriminate. }
    { intros q Hq; apply Hk; right; auto. }
    assert (Et : map fst t' = fst p :: map fst t) by reflexivity.
    exists avail', refd'. split; [|split; [|split; [|split; [|split]]]].
    + rewrite Et in R |- *. exact R.
    + intros d [<-|Hd]; [apply K2; left; auto|apply K1; auto].
    + intros d Hd; apply K2; right; auto.
    + intros d b' G. destruct (K3 d b' G) as [?|G']; [left; right; auto|].
      rewrite amap_put_get in G'. destruct (d =? bd b) eqn:E'; auto. injection G' as <-. apply N.eqb_eq in E'; subst. left; left; auto.
    + intros d [<-|Hd]; [|apply K4; auto]. eapply (K5 (bd b) b). rewrite amap_put_get, N.eqb_refl; auto.
    + intros d b' G. destruct (d =? bd b) eqn:E'.
      * eapply (K5 d b). rewrite amap_put_get, E'; auto.
      * eapply (K5 d b'). rewrite amap_put_get, E'; auto.
Qed.

Variable hd : N -> subdag -> N -> N.

Theorem write_read cap e o rest :
  output_for bd addr (out_sub o) (out_parent o) (out_num o) o -> one_batch_per_digest bd o ->
  (length (batch_set (out_sub o)) <= cap)%nat ->
  check_expectation hd (header_of o) e = true ->
  iter_to_output bd addr hd cap e (write_output bd o ++ rest) = ROk o rest.
Proof.
  intros Ho Hu Hcap He. unfold write_output, iter_to_output. simpl. rewrite He. simpl.
  destruct (Nat.eqb (num_primary_batches (out_sub o)) 0) eqn:E.
  - apply named_nil_len in E. destruct Ho as [_ [_ [_ [D [B _]]]]]. specialize (B E). rewrite E in D.
    unfold collect_batches. rewrite B; simpl. destruct o; simpl in *; subst; auto.
  - assert (Hn : named (out_sub o) <> []). { intro C. apply named_nil_len in C. congruence. }
    destruct (cap <? _)%nat eqn:Ec; [apply Nat.ltb_lt in Ec; lia|].
    pose proof (collect_keys _ _ _ _ Ho Hn) as Ek. rewrite <- Ek.
    destruct (read_batches_written (collect_batches bd o) rest [] []) as [avail [refd [R [K1 [_ [K3 [K4 _]]]]]]].
    { intro C. rewrite C in Ek; simpl in Ek. apply Hn.
      destruct (named (out_sub o)) as [|x l] eqn:El; auto. exfalso.
      assert (In x (batch_set (out_sub o))) by (apply batch_set_in; rewrite El; left; auto). rewrite <- Ek in H; auto. }
    { intros p Hp. apply (collect_in o p Hp). }
    rewrite R.
    assert (K3' : forall d b, amap_get d avail = Some b -> In (d, b) (collect_batches bd o)).
    { intros d b G. destruct (K3 d b G) as [?|C]; auto. discriminate C. }
    assert (I : asm_inv avail []).
    { split; [|split]; [|intros ? ? []|intros ? ? ? ? []]. intros d b G. symmetry. apply (collect_in o _ (K3' _ _ G)). }
    destruct Ho as [_ [_ [_ [D [_ F]]]]]. specialize (F Hn).
    assert (Hkeys : forall d, In d (named (out_sub o)) -> In d (map fst (collect_batches bd o))).
    { intros d Hd. rewrite Ek. apply batch_set_in; auto. }
    destruct (assemble_total (fun d => memN d refd) (sd_hdrs (out_sub o)) avail [] I) as [bs A].
    { intros h Hh. clear - F Hh. induction F as [|h' cb hs cbs [X _] _ IH]; [destruct Hh|].
      destruct Hh as [->|Hh]; auto. rewrite X; intro C; discriminate C. }
    { intros d Hd. left. apply K4, Hkeys, Hd. }
    { intros d Hd. apply memN_In, K1, Hkeys, Hd. }
    rewrite A. destruct (assemble_ok _ _ _ [] _ I A) as [new [En [Fn [_ Vn]]]]. simpl in En; subst new.
    f_equal.
    apply (output_for_unique (out_sub o) (out_parent o) (out_num o)); simpl.
    + intros a b Ha Hb Hab. destruct (Vn a Ha) as [[]|[d G]].
      apply Hu; auto. apply (collect_in o _ (K3' _ _ G)).
    + unfold output_for; simpl. rewrite batch_digests_named. repeat (split; auto). intros; contradiction.
    + unfold output_for. rewrite D. repeat (split; auto). intros; contradiction.
Qed.

(** Whatever stream is read, an accepted output is well formed, satisfies the expectation and is the
    records at the front of the stream. *)
Lemma read_batches_sound exp : forall recs avail refd avail' refd' rest,
  asm_inv avail [] ->
  read_batches bd exp recs avail refd = Some (avail', refd', rest) ->
  asm_inv avail' [] /\
  (forall d b, amap_get d avail' = Some b -> amap_get d avail = Some b \/ In (RBatch b) recs) /\
  exists used, recs = map RBatch used ++ rest /\ (rest <> [] -> map bd used = exp) /\
    exists t, exp = map bd used ++ t.
Proof.
  induction exp as [|e exp IH]; intros recs avail refd avail' refd' rest I H.
  - destruct recs as [|[m|h|b|] recs]; simpl in H; try discriminate H. injection H as <- <- <-.
    split; [auto|split; [auto|]]. exists []. split; auto. split; [congruence|]. exists []; auto.
  - destruct recs as [|[m|h|b|] recs]; simpl in H; try discriminate H.
    { injection H as <- <- <-. split; [auto|split; [auto|]]. exists []. split; auto. split; [congruence|]. exists (e :: exp); auto. }
    destruct (e =? bd b) eqn:E; [|discriminate H]. apply N.eqb_eq in E; subst e.
    assert (I' : asm_inv (amap_put (bd b) b avail) []).
    { split; [|split]; [|intros ? ? []|intros ? ? ? ? []]. intros d b'. rewrite amap_put_get.
      destruct (d =? bd b) eqn:E; [|apply I]. intros H'; injection H' as <-. apply N.eqb_eq in E; auto. }
    destruct exp as [|e2 exp].
    + injection H as <- <- <-. split; [auto|split].
      * intros d b'. change ((bd b, b) :: amap_del (bd b) avail) with (amap_put (bd b) b avail). rewrite amap_put_get.
        destruct (d =? bd b); auto. intros H'; injection H' as <-. right; left; auto.
      * exists [b]. split; auto. split; auto. exists []; auto.
    + destruct (IH _ _ _ _ _ _ I' H) as [A [B [used [C [D [t T]]]]]]. split; [auto|split].
      * intros d b' G. destruct (B d b' G) as [G'|?]; [|right; right; auto].
        rewrite amap_put_get in G'. destruct (d =? bd b); auto. injection G' as <-. right; left; auto.
      * exists (b :: used). split; [rewrite C; auto|]. split.
        { intros Hr. simpl. f_equal. auto. }
        { exists t. simpl. f_equal. auto. }
Qed.

Theorem read_sound cap e recs o rest :
  iter_to_output bd addr hd cap e recs = ROk o rest ->
  output_for bd addr (out_sub o) (out_parent o) (out_num o) o /\ one_batch_per_digest bd o /\
  check_expectation hd (header_of o) e = true /\
  (forall b, In b (flat_map cb_batches (out_batches o)) -> In (RBatch b) recs) /\
  exists used, recs = RHeader (header_of o) :: map RBatch used ++ rest.
Proof.
  unfold iter_to_output. destruct recs as [|[m|h|b|] recs]; intros H; try discriminate H.
  destruct (check_expectation hd h e) eqn:Ee; [|discriminate H].
  destruct (Nat.eqb (num_primary_batches (ch_sub h)) 0) eqn:En.
  - injection H as <- <-. apply named_nil_len in En. unfold output_for, one_batch_per_digest, header_of; simpl.
    rewrite En. split; [repeat (split; auto); intros; congruence|].
    split; [tauto|]. split; [destruct h; auto|]. split; [tauto|]. exists []. destruct h; auto.
  - destruct (cap <? _)%nat; [discriminate H|].
    destruct (read_batches _ _ _ _ _) as [[[avail refd] rest']|] eqn:R; [|discriminate H].
    destruct (assemble _ _ _ _ _ _) as [bs|] eqn:A; [|discriminate H]. injection H as <- <-.
    assert (I0 : asm_inv [] []) by (split; [|split]; [intros d b C; discriminate C|intros ? ? []|intros ? ? ? ? []]).
    destruct (read_batches_sound _ _ _ _ _ _ _ I0 R) as [I [V [used [U _]]]].
    destruct (assemble_ok _ _ _ [] _ I A) as [new [E2 [Fn [Un Vn]]]]. simpl in E2; subst new.
    assert (Hn : named (ch_sub h) <> []). { intro C. apply named_nil_len in C. congruence. }
    split; [|split; [|split; [|split]]].
    + unfold output_for; simpl. rewrite batch_digests_named. repeat (split; auto). intros; contradiction.
    + exact Un.
    + destruct h; auto.
    + simpl. intros b Hb. destruct (Vn b Hb) as [[]|[d G]]. destruct (V _ _ G) as [C|?]; [discriminate C|auto].
    + exists used. rewrite U. destruct h; auto.
Qed.
End O.
