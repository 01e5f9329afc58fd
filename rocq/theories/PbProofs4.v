From Verif Require Import Util PbModel PbSpec PbProofs1 PbProofs2.
Local Open Scope N_scope.

(** a report without assumptions on the map *)
Lemma committed_shape rs s : exists ds t dn,
  process_committed rs s = set_tracked s (ds ++ b_queue s) t dn (b_requeued s ++ ds).
Proof.
  unfold process_committed.
  match goal with |- context [fold_left ?f rs ?a] => destruct (fold_left f rs a) as [tr dn] end.
  destruct (tm_upto _ tr) as [|x old].
  - exists [], tr, dn. rewrite app_nil_r. reflexivity.
  - eexists _, _, dn. reflexivity.
Qed.

(** ** a waiting digest gets its turn *)
Definition turn (c : bcfg) (s0 : bst) (d : pdig) (p : nat) (s : bst) : Prop :=
  exists news rq, b_created s = b_created s0 ++ news /\ b_requeued s = b_requeued s0 ++ rq /\
    ((exists h, In h news /\ carries h (fst d))
     \/ exists pr po, b_queue s = pr ++ d :: po /\ (length pr + length news * c_max c <= p + length rq)%nat).
Lemma turn_pre c s0 d p s e : b_dead s = false -> turn c s0 d p s -> turn c s0 d p (pre c s e).
Proof.
  intros _ T. destruct e as [x w|cs q|cr rs| | | | | |v|f]; cbn [pre].
  - destruct T as (news & rq & E1 & E2 & T). exists news, rq. split; [exact E1|]. split; [exact E2|].
    destruct T as [T|(pr & po & Q & L)]; [left; exact T|]. right. exists pr, (po ++ [(x, w)]).
    split; [cbn; rewrite Q, <- app_assoc; reflexivity|exact L].
  - destruct (parents_shape c cs q s) as (r & pr & ps & l & a & -> & _). exact T.
  - destruct (committed_shape rs s) as (ds & t & dn & ->). destruct T as (news & rq & E1 & E2 & T).
    exists news, (rq ++ ds). split; [exact E1|]. split; [cbn; rewrite E2, <- app_assoc; reflexivity|].
    destruct T as [T|(pr & po & Q & L)]; [left; exact T|]. right. exists (ds ++ pr), po.
    split; [cbn; rewrite Q, <- app_assoc; reflexivity|]. rewrite !app_length. lia.
  - unfold write_record. destruct (b_pend s) as [[h [|]]|]; exact T.
  - unfold task_done. destruct (b_pend s) as [[h [|]]|]; exact T.
  - destruct (b_pend s); exact T.
  - exact T.
  - exact T.
  - exact T.
  - exact T.
Qed.
Lemma turn_new c s0 d p s : turn c s0 d p s -> turn c s0 d p (do_new c s).
Proof.
  intros (news & rq & E1 & E2 & T). exists (news ++ [new_header c s]), rq.
  split; [cbn; rewrite E1, <- app_assoc; reflexivity|]. split; [exact E2|].
  destruct T as [(h & X & Y)|(pr & po & Q & L)]; [left; exists h; split; [apply in_app_iff; left; exact X|exact Y]|].
  set (k := Nat.min (length (b_queue s)) (c_max c)).
  destruct (Nat.lt_ge_cases (length pr) k) as [Lt|Ge].
  - left. exists (new_header c s). split; [apply in_app_iff; right; left; reflexivity|].
    unfold carries, new_header. cbn [bh_payload]. fold k. apply im_collect_keys. rewrite Q.
    unfold keys. apply in_map. rewrite firstn_app. apply in_app_iff. right.
    destruct (k - length pr)%nat eqn:E; [lia|]. left. reflexivity.
  - right. exists (skipn k pr), po. split.
    + cbn [b_queue do_new]. fold k. rewrite Q. rewrite skipn_app. replace (k - length pr)%nat with O by lia. reflexivity.
    + assert (Hk : k = c_max c).
      { unfold k in *. rewrite Q, app_length in *. cbn [length] in *. lia. }
      rewrite skipn_length, app_length. cbn [length]. rewrite Hk in *. lia.
Qed.
Lemma turn_run c s0 d p evs : forall s, turn c s0 d p s -> turn c s0 d p (brun c s evs).
Proof.
  apply run_inv. apply (step_inv (turn c s0 d p) c).
  - intros; apply turn_pre; assumption.
  - intros; apply turn_new; assumption.
  - intros s h _ _ _ _ _ T. exact T.
  - intros s h _ _ _ T. exact T.
Qed.

(** ** first come, first served *)
Definition fifo (s : bst) : Prop :=
  NoDup (keys (b_acked s)) -> b_requeued s = [] -> flat_map bh_payload (b_created s) ++ b_queue s = b_acked s.
Lemma fifo_run c evs : forall s, fifo s -> fifo (brun c s evs).
Proof.
  apply run_inv. apply (step_inv fifo c).
  - intros s e _ F. destruct e as [x w|cs q|cr rs| | | | | |v|f]; cbn [pre].
    + intros ND R. cbn [b_created b_queue b_acked set_q] in *. rewrite app_assoc. f_equal. apply F; [|exact R].
      unfold keys in ND. rewrite map_app in ND. apply NoDup_app_elim in ND. apply ND.
    + destruct (parents_shape c cs q s) as (r & pr & ps & l & a & -> & _). exact F.
    + destruct (committed_shape rs s) as (ds & t & dn & ->). intros ND R. cbn [b_created b_queue b_acked b_requeued set_tracked] in *.
      apply app_eq_nil in R as [R ->]. cbn. apply F; assumption.
    + unfold write_record. destruct (b_pend s) as [[h [|]]|]; exact F.
    + unfold task_done. destruct (b_pend s) as [[h [|]]|]; exact F.
    + destruct (b_pend s); exact F.
    + exact F.
    + exact F.
    + exact F.
    + exact F.
  - intros s _ _ _ F ND R. cbn [b_created b_queue b_acked b_requeued do_new] in *. specialize (F ND R).
    set (k := Nat.min (length (b_queue s)) (c_max c)).
    rewrite flat_map_app. cbn [flat_map]. rewrite app_nil_r. unfold new_header. cbn [bh_payload]. fold k.
    rewrite im_collect_nodup.
    + rewrite <- app_assoc, firstn_skipn. exact F.
    + rewrite <- F in ND. unfold keys in *. rewrite map_app in ND. apply NoDup_app_elim in ND as (_ & ND & _).
      rewrite <- (firstn_skipn k (b_queue s)), map_app in ND. apply NoDup_app_elim in ND. apply ND.
  - intros s h _ _ _ _ _ F. exact F.
  - intros s h _ _ _ F. exact F.
Qed.

(** ** the headers built *)
Definition shape (c : bcfg) (h : bhdr) : Prop :=
  bh_epoch h = c_epoch c /\ 0 < bh_round h /\ bh_parents h <> [] /\ (length (bh_payload h) <= c_max c)%nat.
Definition built (c : bcfg) (s : bst) : Prop :=
  (forall h, In h (b_created s) -> shape c h /\ bh_round h <= b_round s) /\
  StronglySorted N.lt (map bh_round (b_created s)).
Lemma built_same c s s' : built c s -> b_created s' = b_created s -> b_round s <= b_round s' -> built c s'.
Proof.
  intros [A B] E L. unfold built. rewrite E. split; [|exact B]. intros h X. destruct (A h X). split; [assumption|lia].
Qed.
Lemma ssorted_snoc l x : StronglySorted N.lt l -> (forall y, In y l -> y < x) -> StronglySorted N.lt (l ++ [x]).
Proof.
  induction l as [|a l IH]; cbn; intros S H; [constructor; constructor|].
  inversion S as [|? ? S' F]; subst. constructor.
  - apply IH; [exact S'|]. intros y Y. apply H. right. exact Y.
  - apply Forall_app. split; [exact F|]. constructor; [apply H; left; reflexivity|constructor].
Qed.
Lemma built_run c evs : forall s, built c s -> built c (brun c s evs).
Proof.
  apply run_inv. apply (step_inv (built c) c).
  - intros s e _ B. destruct e as [x w|cs q|cr rs| | | | | |v|f]; cbn [pre]; try exact B.
    + destruct (parents_shape c cs q s) as (r & pr & ps & l & a & -> & L & _). apply (built_same c s); [exact B|reflexivity|exact L].
    + destruct (committed_shape rs s) as (ds & t & dn & ->). exact B.
    + unfold write_record. destruct (b_pend s) as [[h [|]]|]; exact B.
    + unfold task_done. destruct (b_pend s) as [[h [|]]|]; exact B.
    + destruct (b_pend s); exact B.
  - intros s _ Q _ [A B]. pose proof (next_round_gt s) as Lt. split; cbn [b_created b_round do_new].
    + intros h X. apply in_app_iff in X as [X|[<-|[]]].
      * destruct (A h X). split; [assumption|lia].
      * split; [|cbn; lia]. unfold shape, new_header. cbn [bh_epoch bh_round bh_parents bh_payload].
        split; [reflexivity|]. split; [lia|]. split; [exact Q|].
        eapply Nat.le_trans; [apply im_collect_len|]. rewrite firstn_length. lia.
    + rewrite map_app. cbn [map]. apply ssorted_snoc; [exact B|]. intros y Y. apply in_map_iff in Y as (h & <- & Y).
      destruct (A h Y). cbn. lia.
  - intros s h _ _ _ _ _ B. pose proof (next_round_gt s) as Lt. apply (built_same c s); [exact B|reflexivity|cbn; lia].
  - intros s h _ _ _ B. exact B.
Qed.

(** ** parents are from the round before *)
Definition aligned (s : bst) : Prop :=
  (forall x, In x (b_parents s) -> bc_round x = b_round s) /\ b_prim s <= b_round s /\
  (forall h, In h (b_created s) -> forall x, In x (bh_parents h) -> bh_round h = bc_round x + 1).
Lemma aligned_step c s e : own_watch s e -> aligned s -> aligned (bstep c s e).
Proof.
  intros W A. destruct (b_dead s) eqn:D; [rewrite step_dead by exact D; exact A|].
  assert (A' : aligned (pre c s e)).
  { destruct e as [x w|cs q|cr rs| | | | | |v|f]; cbn [pre]; try exact A.
    - destruct (parents_shape c cs q s) as (r & pr & ps & l & a & -> & L & Sh). destruct A as (A1 & A2 & A3). cbn in W.
      split; [|split; [|exact A3]]; cbn [b_parents b_round b_prim set_adv set_parents].
      + destruct Sh as [(-> & _ & [->|(Eq & ->)])|(-> & _ & -> & _)]; [exact A1| |exact W].
        intros x X. apply in_app_iff in X as [X|X]; [exact (A1 x X)|rewrite (W x X); exact Eq].
      + destruct Sh as [(-> & -> & _)|(-> & -> & _)]; [exact A2|lia].
    - destruct (committed_shape rs s) as (ds & t & dn & ->). exact A.
    - unfold write_record. destruct (b_pend s) as [[h [|]]|]; exact A.
    - unfold task_done. destruct (b_pend s) as [[h [|]]|]; exact A.
    - destruct (b_pend s); exact A.
    - destruct A as (A1 & A2 & A3). split; [exact A1|]. split; [exact W|exact A3]. }
  destruct (step_case c s e D) as [|P Q NM|h P Q S R He|h P S M]; [exact A'| | |exact A'].
  - destruct A' as (A1 & A2 & A3). split; [intros x []|]. split; [cbn; lia|]. cbn [b_created do_new].
    intros h X. apply in_app_iff in X as [X|[<-|[]]]; [exact (A3 h X)|]. cbn [bh_parents bh_round new_header].
    intros x Y. rewrite (A1 x Y). unfold next_round. lia.
  - destruct A' as (A1 & A2 & A3). split; [intros x []|]. split; [cbn; lia|exact A3].
Qed.
Lemma aligned_run c evs : forall s, aligned s -> along_b own_watch c s evs -> aligned (brun c s evs).
Proof.
  induction evs as [|e evs IH]; intros s A W; [exact A|]. cbn in W. destruct W as [W1 W2]. cbn.
  apply IH; [apply aligned_step; assumption|exact W2].
Qed.

(** ** what counts as committed was reported, and had been sent *)
Definition from_sent (R : N -> Prop) (s : bst) : Prop :=
  (forall r h, In (r, h) (b_tracked s) -> In h (b_sent s)) /\
  (forall h, In h (b_done s) -> In h (b_sent s) /\ R (bh_round h)).
Lemma from_sent_step (R : N -> Prop) c s e : inv1 c s ->
  (match e with BReport _ rs => forall r, In r rs -> R r | _ => True end) ->
  from_sent R s -> from_sent R (bstep c s e).
Proof.
  intros I HR A. destruct (b_dead s) eqn:D; [rewrite step_dead by exact D; exact A|].
  assert (A' : from_sent R (pre c s e)).
  { destruct e as [x w|cs q|cr rs| | | | | |v|f]; cbn [pre]; try exact A.
    - destruct (parents_shape c cs q s) as (r & pr & ps & l & a & -> & _). exact A.
    - rewrite process_committed_eq by apply I. destruct A as [A1 A2]. split; cbn [b_tracked b_done b_sent set_tracked].
      + intros r h X. unfold still in X. apply filter_In in X as [X _]. exact (A1 r h X).
      + intros h X. apply take_done_In in X; [|apply I]. destruct X as [X|(r & X & Y)]; [exact (A2 h X)|].
        split; [exact (A1 r h Y)|]. rewrite (i_round _ _ I _ _ Y). exact (HR r X).
    - unfold write_record. destruct (b_pend s) as [[h [|]]|]; exact A.
    - unfold task_done. destruct (b_pend s) as [[h [|]]|]; try exact A. destruct A as [A1 A2].
      split; cbn [b_tracked b_done b_sent].
      + intros r g X. apply in_tm_insert in X; [|apply I]. apply in_app_iff. destruct X as [X|[X _]].
        * injection X as _ ->. right; left; reflexivity.
        * left. exact (A1 r g X).
      + intros g X. destruct (A2 g X). split; [apply in_app_iff; left|]; assumption.
    - destruct (b_pend s); exact A. }
  destruct (step_case c s e D) as [|P Q NM|h P Q S R' He|h P S M]; exact A'.
Qed.
Lemma from_sent_run (R : N -> Prop) c evs : forall s, inv1 c s -> from_sent R s ->
  (forall cr rs, In (BReport cr rs) evs -> forall r, In r rs -> R r) -> from_sent R (brun c s evs).
Proof.
  induction evs as [|e evs IH]; intros s I A HR; [exact A|]. cbn. apply IH.
  - apply inv1_step; exact I.
  - apply from_sent_step; [exact I| |exact A]. destruct e; try exact Logic.I. apply (HR cr). left. reflexivity.
  - intros cr rs X. apply (HR cr). right. exact X.
Qed.

(** ** a restarted proposer sends its recorded header first *)
Definition resend_first (h : bhdr) (s : bst) : Prop :=
  (b_pend s = None /\ b_created s = [] /\ b_store s = Some h /\ b_round s = bh_round h - 1 /\ b_prim s < bh_round h)
  \/ ((exists b, b_pend s = Some (h, b)) /\ b_created s = [])
  \/ In h (b_sent s) \/ (b_dead s = true /\ b_created s = []).
Definition quiet_b (h : bhdr) (e : bev) : Prop :=
  match e with BParents _ q => q < bh_round h | BPrim v => v < bh_round h | _ => True end.
Lemma resend_step c h s e : bh_epoch h = c_epoch c -> 0 < bh_round h -> quiet_b h e ->
  resend_first h s -> resend_first h (bstep c s e).
Proof.
  intros He Hp W A. destruct (b_dead s) eqn:D; [rewrite step_dead by exact D; exact A|].
  destruct A as [(P & C & S & R & L)|[((b & P) & C)|[X|[X _]]]]; [| | |congruence].
  - (* nothing proposed yet *)
    assert (A' : b_pend (pre c s e) = None /\ b_created (pre c s e) = [] /\ b_store (pre c s e) = Some h /\
                 b_round (pre c s e) = bh_round h - 1 /\ b_prim (pre c s e) < bh_round h).
    { destruct e as [x w|cs q|cr rs| | | | | |v|f]; cbn [pre]; cbn in W; try (cbn; repeat split; assumption).
      - destruct (parents_shape c cs q s) as (r & pr & ps & l & a & -> & L' & Sh).
        cbn [b_pend b_created b_store b_round b_prim set_adv set_parents].
        destruct Sh as [(-> & -> & _)|(-> & -> & _ & L2)]; repeat split; (assumption || lia).
      - destruct (committed_shape rs s) as (ds & t & dn & ->). repeat split; assumption.
      - unfold write_record. rewrite P. repeat split; assumption.
      - unfold task_done. rewrite P. repeat split; assumption.
      - rewrite P. repeat split; assumption. }
    destruct A' as (P' & C' & S' & R' & L').
    destruct (step_case c s e D) as [|P2 Q NM|g P2 Q S2 R2 Hg|g P2 S2 M].
    + left. auto.
    + exfalso. apply (NM h S' He). unfold next_round. lia.
    + right; left. split; [|exact C']. exists false. cbn. congruence.
    + right; left. split; [|exact C']. exists false. cbn. congruence.
  - (* it is in flight: the end of the loop does nothing *)
    destruct e as [x w|cs q|cr rs| | | | | |v|f]; unfold bstep; rewrite D.
    + unfold loop_end. cbn. rewrite P. right; left. split; [exists b; exact P|exact C].
    + destruct (parents_shape c cs q s) as (r & pr & ps & l & a & -> & L' & Sh). unfold loop_end. cbn. rewrite P.
      right; left. split; [exists b; exact P|exact C].
    + destruct (committed_shape rs s) as (ds & t & dn & ->). unfold loop_end. cbn. rewrite P.
      right; left. split; [exists b; exact P|exact C].
    + unfold write_record. rewrite P. destruct b.
      * right; left. split; [exists true; exact P|exact C].
      * right; left. split; [exists true; reflexivity|exact C].
    + rewrite P. destruct b; [|right; left; split; [exists false; exact P|exact C]].
      right; right; left. assert (X : In h (b_sent (task_done s))).
      { unfold task_done. rewrite P. cbn. apply in_app_iff. right. left. reflexivity. }
      destruct (loop_end_case c (task_done s)); exact X.
    + rewrite P. right; right; right. split; [reflexivity|exact C].
    + unfold loop_end. cbn. rewrite P. right; left. split; [exists b; exact P|exact C].
    + unfold loop_end. cbn. rewrite P. right; left. split; [exists b; exact P|exact C].
    + right; left. split; [exists b; exact P|exact C].
    + right; left. split; [exists b; exact P|exact C].
  - right; right; left.
    assert (X' : In h (b_sent (pre c s e))).
    { destruct e as [x w|cs q|cr rs| | | | | |v|f]; cbn [pre]; try exact X.
      + destruct (parents_shape c cs q s) as (r & pr & ps & l & a & -> & L' & Sh). exact X.
      + destruct (committed_shape rs s) as (ds & t & dn & ->). exact X.
      + unfold write_record. destruct (b_pend s) as [[g [|]]|]; exact X.
      + unfold task_done. destruct (b_pend s) as [[g [|]]|]; try exact X. cbn. apply in_app_iff. left. exact X.
      + destruct (b_pend s); exact X. }
    destruct (step_case c s e D); exact X'.
Qed.
Lemma resend_run c h evs : bh_epoch h = c_epoch c -> 0 < bh_round h -> Forall (quiet_b h) evs ->
  forall s, resend_first h s -> resend_first h (brun c s evs).
Proof.
  intros He Hp F. induction F as [|e evs W F IH]; intros s A; [exact A|]. cbn. apply IH. apply resend_step; assumption.
Qed.

(** ** no header before its time *)
Definition go (c : bcfg) (s : bst) : Prop :=
  if N.even (b_round s)
  then exists x, In x (b_parents s) /\ bc_origin x = b_sched s (b_round s)
  else b_sched s (b_round s + 1) = c_me c \/
       match b_leader s with
       | None => True
       | Some l => validity c <= votes_for c (bc_digest l) (b_parents s)
                   \/ quorum c <= votes_against c (bc_digest l) (b_parents s)
       end.
Definition adv_ok (c : bcfg) (s : bst) : Prop :=
  b_dead s = false -> b_pend s = None -> b_adv s = true -> b_parents s = c_genesis c \/ go c s.
Lemma ready_ok c s : b_adv (ready c s) = true -> go c (ready c s).
Proof.
  unfold ready, go. destruct (N.even (b_round s)) eqn:E; cbn [b_adv set_adv b_round b_parents b_sched b_leader]; rewrite E.
  - destruct (find_leader s) as [x|] eqn:F; intros X; [|discriminate X]. unfold find_leader in F.
    apply find_some in F as [F G]. apply N.eqb_eq in G. exists x. split; assumption.
  - unfold enough_votes. destruct (N.eqb_spec (b_sched s (b_round s + 1)) (c_me c)) as [G|G]; [left; exact G|].
    destruct (b_leader s) as [l|]; [|right; exact I]. intros X. right.
    apply orb_true_iff in X as [X|X]; apply N.leb_le in X; [left|right]; exact X.
Qed.
Lemma adv_pre c s e : b_dead s = false -> (match e with BSched _ => False | _ => True end) ->
  adv_ok c s -> adv_ok c (pre c s e).
Proof.
  intros D NS A. destruct e as [x w|cs q|cr rs| | | | | |v|f]; cbn [pre]; try exact A.
  - intros _ _ X. right. exact (ready_ok c _ X).
  - destruct (committed_shape rs s) as (ds & t & dn & ->). exact A.
  - unfold write_record. destruct (b_pend s) as [[h [|]]|]; try exact A. intros _ X. discriminate X.
  - unfold task_done. destruct (b_pend s) as [[h [|]]|]; try exact A. intros _ _ X. discriminate X.
  - destruct (b_pend s) as [p|] eqn:Pp; [|exact A]. intros X. discriminate X.
  - contradiction.
Qed.
Lemma adv_step c s e : (match e with BSched _ => False | _ => True end) -> adv_ok c s -> adv_ok c (bstep c s e).
Proof.
  intros NS A. destruct (b_dead s) eqn:D; [rewrite step_dead by exact D; exact A|].
  destruct (step_case c s e D) as [|P Q NM|h P Q S R He|h P S M]; [apply adv_pre; assumption|intros _ X; discriminate X..].
Qed.
Lemma adv_run c evs : (forall f, ~ In (BSched f) evs) -> forall s, adv_ok c s -> adv_ok c (brun c s evs).
Proof.
  induction evs as [|e evs IH]; intros NS s A; [exact A|]. cbn. apply IH; [intros f X; apply (NS f); right; exact X|].
  apply adv_step; [|exact A]. destruct e; try exact I. apply (NS f). left. reflexivity.
Qed.

(** when the end of the loop builds a header *)
Lemma loop_end_new c s h : b_created (loop_end c s) = b_created s ++ [h] ->
  b_pend s = None /\ h = new_header c s /\ b_parents s <> [] /\
  (b_maxt s = true \/ (b_adv s = true /\ ((c_threshold c <= length (b_queue s))%nat \/ b_mint s = true))).
Proof.
  assert (NE : forall (l : list bhdr) x, l <> l ++ [x]).
  { intros l x X. apply (f_equal (@length bhdr)) in X. rewrite app_length in X. cbn in X. lia. }
  intros X. pose proof X as X0. unfold loop_end in X0. destruct (b_pend s) as [p|] eqn:P; [exfalso; exact (NE _ _ X0)|].
  destruct (should_create c s) eqn:Sc.
  - clear X0. unfold loop_end in X. rewrite P, Sc in X. unfold should_create in Sc.
    assert (Hq : b_parents s <> []) by (destruct (b_parents s); [discriminate Sc|discriminate]).
    split; [reflexivity|]. destruct (propose_next_case c s P Hq) as [|? ? ?|g ? ? ? ? ?|g ? ? ?];
      try (exfalso; exact (NE _ _ X)).
    cbn [b_created do_new] in X. apply app_inj_tail in X as [_ X]. split; [symmetry; exact X|]. split; [exact Hq|].
    destruct (b_parents s); [contradiction Hq; reflexivity|]. cbn [andb] in Sc.
    apply orb_true_iff in Sc as [Sc|Sc]; [left; exact Sc|right].
    apply andb_true_iff in Sc as [S1 S2]. split; [exact S1|]. apply orb_true_iff in S2 as [S2|S2]; [left; apply Nat.leb_le; exact S2|right; exact S2].
  - destruct (b_maxt s); [|exfalso; exact (NE _ _ X0)]. destruct (b_store s); exfalso; exact (NE _ _ X0).
Qed.
Lemma step_new c s e h : b_created (bstep c s e) = b_created s ++ [h] ->
  b_dead s = false /\ bstep c s e = loop_end c (pre c s e) /\ b_created (pre c s e) = b_created s.
Proof.
  assert (NE : forall (l : list bhdr) x, l <> l ++ [x]).
  { intros l x X. apply (f_equal (@length bhdr)) in X. rewrite app_length in X. cbn in X. lia. }
  intros X. unfold bstep in *. destruct (b_dead s) eqn:D; [exfalso; exact (NE _ _ X)|]. split; [reflexivity|].
  destruct e as [x w|cs q|cr rs| | | | | |v|f]; cbn [pre].
  - split; reflexivity.
  - destruct (parents_shape c cs q s) as (r & pr & ps & l & a & E & _). split; [reflexivity|]. rewrite E. reflexivity.
  - destruct (committed_shape rs s) as (ds & t & dn & E). split; [reflexivity|]. rewrite E. reflexivity.
  - exfalso. unfold write_record in X. destruct (b_pend s) as [[g [|]]|]; exact (NE _ _ X).
  - destruct (b_pend s) as [[g [|]]|] eqn:P; [|exfalso; exact (NE _ _ X)..]. split; [reflexivity|].
    unfold task_done. rewrite P. reflexivity.
  - exfalso. destruct (b_pend s); exact (NE _ _ X).
  - split; reflexivity.
  - split; reflexivity.
  - exfalso. exact (NE _ _ X).
  - exfalso. exact (NE _ _ X).
Qed.

(** ** counting votes *)
Lemma votes_split c d ps : forall a b,
  fold_left (fun acc x => if existsb (N.eqb d) (bc_parents x) then acc + power c (bc_origin x) else acc) ps a +
  fold_left (fun acc x => if existsb (N.eqb d) (bc_parents x) then acc else acc + power c (bc_origin x)) ps b =
  a + b + sumN (map (fun x => power c (bc_origin x)) ps).
Proof.
  induction ps as [|x ps IH]; intros a b; cbn; [lia|].
  destruct (existsb (N.eqb d) (bc_parents x)); rewrite IH; unfold sumN; lia.
Qed.
Lemma votes_total c d ps : votes_for c d ps + votes_against c d ps = sumN (map (fun x => power c (bc_origin x)) ps).
Proof. unfold votes_for, votes_against. rewrite votes_split. lia. Qed.
Lemma sum_power c ps : (forall x, In x ps -> c_member c (bc_origin x) = true) ->
  sumN (map (fun x => power c (bc_origin x)) ps) = N.of_nat (length ps).
Proof.
  induction ps as [|x ps IH]; intros H; [reflexivity|].
  assert (E : power c (bc_origin x) = 1) by (unfold power; rewrite (H x (or_introl eq_refl)); reflexivity).
  cbn [map length]. unfold sumN in *. cbn [fold_right]. rewrite E, IH; [lia|]. intros y Y. apply H. right. exact Y.
Qed.
Lemma full_votes c d ps : 0 < c_size c -> c_size c <= votes_for c d ps + votes_against c d ps ->
  validity c <= votes_for c d ps \/ quorum c <= votes_against c d ps.
Proof.
  intros Hn E. unfold validity, quorum. set (n := c_size c) in *. set (v := votes_for c d ps) in *.
  set (w := votes_against c d ps) in *. clearbody n v w.
  assert (A := N.div_mod (n + 2) 3 ltac:(lia)). assert (B := N.mod_lt (n + 2) 3 ltac:(lia)).
  assert (C := N.div_mod (2 * n) 3 ltac:(lia)). assert (F := N.mod_lt (2 * n) 3 ltac:(lia)).
  set (p := (n + 2) / 3) in *. set (q := 2 * n / 3) in *. clearbody p q.
  destruct (N.le_gt_cases (N.max 1 p) v) as [L|L]; [left; exact L|right]. lia.
Qed.
