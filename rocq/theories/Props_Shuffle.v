(* C33: the next committee. *)
From Verif Require Import Util ShuffleModel ShuffleProofs.

Definition eligible (v : vinfo) : Prop := vi_status v = SActive \/ vi_status v = SPendingActivation \/ vi_status v = SPendingExit.
Definition staying (v : vinfo) : Prop := vi_status v = SActive \/ vi_status v = SPendingActivation.
Definition is_eligible (v : vinfo) : bool := match vi_status v with SOther => false | _ => true end.
Definition is_staying (v : vinfo) : bool := match vi_status v with SActive | SPendingActivation => true | _ => false end.

Lemma pool_perm reg : Permutation (eligible_pool reg) (filter is_eligible reg).
Proof.
  unfold eligible_pool. induction reg as [|v reg IH]; [constructor|]. cbn [filter]. unfold is_eligible at 1.
  destruct (vi_status v) eqn:Ev; cbn [status_eqb]; [| | |exact IH].
  - cbn [app]. constructor. exact IH.
  - cbn [app]. rewrite <- Permutation_middle. constructor. exact IH.
  - rewrite app_assoc, <- Permutation_middle, <- app_assoc. constructor. exact IH.
Qed.
Lemma NoDup_map_filter {A B} (f : A -> B) (p : A -> bool) l : NoDup (map f l) -> NoDup (map f (filter p l)).
Proof.
  induction l as [|x l IH]; cbn [map filter]; [auto|]. intros H. inversion H as [|? ? H1 H2]; subst. destruct (p x); [|auto].
  cbn [map]. constructor; [|auto]. intros Hin. apply H1. apply in_map_iff in Hin as (y & <- & Hy). apply filter_In in Hy as [Hy _]. apply in_map; auto.
Qed.
Lemma pool_NoDup reg : NoDup (map vi_addr reg) -> NoDup (map vi_addr (eligible_pool reg)).
Proof.
  intros H. eapply Permutation_NoDup; [apply Permutation_map, Permutation_sym, pool_perm|]. apply NoDup_map_filter; auto.
Qed.
Lemma filter_split {A} (p : A -> bool) l : Permutation (filter (fun x => negb (p x)) l ++ filter p l) l.
Proof.
  induction l as [|x l IH]; cbn [filter]; [constructor|]. destruct (p x); cbn [negb].
  - rewrite <- Permutation_middle. constructor. auto.
  - cbn [app]. constructor. auto.
Qed.

(* what the shuffle is given: a part of the pool *)
Lemma assemble_parts g size pool r : assemble g size pool = r ->
  let act := filter (fun v => negb (status_eqb (vi_status v) SPendingExit)) pool in
  let pe := filter (fun v => status_eqb (vi_status v) SPendingExit) pool in
  size = 0 /\ r = inr EZero \/
  0 < size /\ exists chosen sh, Permutation sh chosen /\
    (if size <=? length act then chosen = act
     else exists extra other, chosen = act ++ extra /\ Permutation (extra ++ other) pe /\ length extra = Nat.min (size - length act) (length pe)) /\
    (if size <=? length chosen then r = inl (firstn size (map vi_addr sh)) else r = inr (EUndersized size (length chosen))).
Proof.
  intros <- act pe. unfold assemble. destruct (size =? 0) eqn:E0; [left; apply Nat.eqb_eq in E0; auto|]. right. apply Nat.eqb_neq in E0. split; [lia|].
  cbv zeta. fold act. fold pe.
  assert (Hend : forall p chosen, exists sh, Permutation sh chosen /\
     (if size <=? length chosen then
        (if length (firstn size (map vi_addr (fisher_yates g p (length chosen - 1) chosen))) =? size
         then inl (firstn size (map vi_addr (fisher_yates g p (length chosen - 1) chosen)))
         else inr (EUndersized size (length (firstn size (map vi_addr (fisher_yates g p (length chosen - 1) chosen)))))) = inl (firstn size (map vi_addr sh))
      else (if length (firstn size (map vi_addr (fisher_yates g p (length chosen - 1) chosen))) =? size
         then inl (firstn size (map vi_addr (fisher_yates g p (length chosen - 1) chosen)))
         else inr (EUndersized size (length (firstn size (map vi_addr (fisher_yates g p (length chosen - 1) chosen)))))) = inr (EUndersized size (length chosen)))).
  { intros p chosen. pose proof (fy_perm g (length chosen - 1) p chosen) as Hp.
    exists (fisher_yates g p (length chosen - 1) chosen). split; auto.
    rewrite firstn_length, map_length, (Permutation_length Hp).
    destruct (size <=? length chosen) eqn:El.
    - apply Nat.leb_le in El. rewrite Nat.min_l by auto. rewrite Nat.eqb_refl. auto.
    - apply Nat.leb_gt in El. rewrite Nat.min_r by lia. destruct (length chosen =? size) eqn:Eq; [apply Nat.eqb_eq in Eq; lia|]. auto. }
  destruct (size <=? length act) eqn:Ea.
  - exists act. destruct (Hend 0 act) as (sh & H1 & H2). exists sh. auto.
  - destruct (choose_multiple g 0 pe (size - length act)) as [p extra] eqn:Ec.
    pose proof (choose_sub g 0 pe (size - length act)) as (other & P & L). rewrite Ec in P, L. cbn [snd] in P, L.
    exists (act ++ extra). destruct (Hend p (act ++ extra)) as (sh & H1 & H2). exists sh. split; auto. split; [|auto]. exists extra, other. auto.
Qed.

Lemma firstn_In {A} (x : A) l n : In x (firstn n l) -> In x l.
Proof. revert n. induction l as [|y l IH]; intros [|n]; simpl; try tauto. intros [H|H]; eauto. Qed.
Lemma NoDup_firstn' {A} (l : list A) : forall n, NoDup l -> NoDup (firstn n l).
Proof.
  induction l as [|y l IH]; intros [|n] H; simpl; try constructor; inversion H; subst; auto. intros Hin. apply firstn_In in Hin. auto.
Qed.
(* chosen has distinct addresses *)
Lemma chosen_sub g size pool c : assemble g size pool = inl c -> exists chosen other sh,
  Permutation (chosen ++ other) pool /\ Permutation sh chosen /\ c = firstn size (map vi_addr sh) /\ size <= length chosen /\ 0 < size /\
  ((exists v, In v chosen /\ status_eqb (vi_status v) SPendingExit = true) -> incl (filter (fun v => negb (status_eqb (vi_status v) SPendingExit)) pool) chosen /\ length chosen = size).
Proof.
  intros H. destruct (assemble_parts g size pool _ H) as [[_ H0]|(H0 & chosen & sh & P & Hc & Hr)]; [discriminate|].
  destruct (size <=? length chosen) eqn:El; [|discriminate]. injection Hr as ->. apply Nat.leb_le in El.
  set (act := filter (fun v => negb (status_eqb (vi_status v) SPendingExit)) pool) in *.
  set (pe := filter (fun v => status_eqb (vi_status v) SPendingExit) pool) in *.
  pose proof (filter_split (fun v => status_eqb (vi_status v) SPendingExit) pool) as Hs. cbv beta in Hs. fold act in Hs. fold pe in Hs.
  destruct (size <=? length act) eqn:Ea.
  - exists act, pe, sh. subst chosen. split; auto. split; auto. split; auto. split; auto. split; auto.
    intros (v & Hv & Hst). apply filter_In in Hv as [_ Hv]. rewrite Hst in Hv. discriminate.
  - destruct Hc as (extra & other & -> & Pe & Le). exists (act ++ extra), other, sh.
    split; [rewrite <- app_assoc, Pe; auto|]. split; auto. split; auto. split; auto. split; auto.
    intros _. split; [intros v Hv; apply in_app_iff; auto|]. rewrite app_length in *. apply Nat.leb_gt in Ea. lia.
Qed.

(* The committee given to the contract is in strictly ascending order (so without repetition), has exactly the configured
   size, and holds only validators that are active, being activated or leaving. *)
Theorem C33_committee_shape gen seed size reg c :
  NoDup (map vi_addr reg) -> new_committee gen seed size reg = inl c ->
  StronglySorted N.lt c /\ length c = size /\ forall a, In a c -> exists v, In v reg /\ vi_addr v = a /\ eligible v.
Proof.
  intros Hn. unfold new_committee. destruct (assemble (gen seed) size (eligible_pool reg)) as [c0|] eqn:Ea; [|discriminate].
  intros H; injection H as <-. apply chosen_sub in Ea as (chosen & other & sh & P1 & P2 & -> & L & _ & _).
  assert (Hnd : NoDup (map vi_addr sh)).
  { eapply Permutation_NoDup; [apply Permutation_map, Permutation_sym, P2|].
    pose proof (pool_NoDup reg Hn) as H. eapply Permutation_NoDup in H; [|apply Permutation_map, Permutation_sym, P1].
    rewrite map_app in H. apply NoDup_app_elim in H as [H _]. auto. }
  split; [|split].
  - apply sorted_strict; [|apply sort_addr_sorted]. eapply Permutation_NoDup; [apply Permutation_sym, sort_addr_perm|]. apply NoDup_firstn'; auto.
  - rewrite (Permutation_length (sort_addr_perm _)). rewrite firstn_length, map_length, (Permutation_length P2). lia.
  - intros a Ha. apply (Permutation_in _ (sort_addr_perm _)) in Ha. apply firstn_In in Ha. apply in_map_iff in Ha as (v & <- & Hv).
    apply (Permutation_in _ P2) in Hv. assert (Hp : In v (eligible_pool reg)) by (apply (Permutation_in _ P1); apply in_app_iff; auto).
    apply (Permutation_in _ (pool_perm reg)) in Hp. apply filter_In in Hp as [Hp1 Hp2]. exists v. split; auto. split; auto.
    unfold is_eligible in Hp2. unfold eligible. destruct (vi_status v); auto. discriminate.
Qed.

(* It succeeds exactly when the size is not zero and there are enough eligible validators. *)
Theorem C33_succeeds_iff gen seed size reg :
  (exists c, new_committee gen seed size reg = inl c) <-> 0 < size <= length (filter is_eligible reg).
Proof.
  rewrite <- (Permutation_length (pool_perm reg)). unfold new_committee. split.
  - intros [c H]. destruct (assemble (gen seed) size (eligible_pool reg)) as [c0|] eqn:Ea; [|discriminate].
    apply chosen_sub in Ea as (chosen & other & sh & P1 & _ & _ & L & L0 & _). apply Permutation_length in P1. rewrite app_length in P1. lia.
  - intros [H0 Hl]. destruct (assemble_parts (gen seed) size (eligible_pool reg) _ eq_refl) as [[Hz _]|(_ & chosen & sh & P & Hc & Hr)]; [lia|].
    set (act := filter (fun v => negb (status_eqb (vi_status v) SPendingExit)) (eligible_pool reg)) in *.
    set (pe := filter (fun v => status_eqb (vi_status v) SPendingExit) (eligible_pool reg)) in *.
    pose proof (filter_split (fun v => status_eqb (vi_status v) SPendingExit) (eligible_pool reg)) as Hs. cbv beta in Hs. fold act in Hs. fold pe in Hs.
    apply Permutation_length in Hs. rewrite app_length in Hs.
    assert (Hch : size <= length chosen).
    { destruct (size <=? length act) eqn:Ea; [apply Nat.leb_le in Ea; subst; auto|]. apply Nat.leb_gt in Ea.
      destruct Hc as (extra & other & -> & _ & Le). rewrite app_length. lia. }
    apply Nat.leb_le in Hch. rewrite Hch in Hr. rewrite Hr. eauto.
Qed.

(* A leaving validator is seated only if the staying ones do not fill the committee, and then all staying ones are in. *)
Theorem C33_leaving_only_to_fill gen seed size reg c v :
  NoDup (map vi_addr reg) -> new_committee gen seed size reg = inl c ->
  In v reg -> vi_status v = SPendingExit -> In (vi_addr v) c ->
  forall w, In w reg -> staying w -> In (vi_addr w) c.
Proof.
  intros Hn. unfold new_committee. destruct (assemble (gen seed) size (eligible_pool reg)) as [c0|] eqn:Ea; [|discriminate].
  intros H; injection H as <-. apply chosen_sub in Ea as (chosen & other & sh & P1 & P2 & -> & L & L0 & Hpe).
  intros Hv Hst Hin w Hw Hws. apply (Permutation_in _ (sort_addr_perm _)) in Hin. apply firstn_In in Hin. apply in_map_iff in Hin as (v' & Ha & Hv').
  apply (Permutation_in _ P2) in Hv'.
  assert (Hin' : forall x, In x chosen -> In x reg).
  { intros x Hx. assert (Hp : In x (eligible_pool reg)) by (apply (Permutation_in _ P1); apply in_app_iff; auto).
    apply (Permutation_in _ (pool_perm reg)) in Hp. apply filter_In in Hp as [Hp _]. auto. }
  assert (v' = v). { assert (Hi : forall l x y, NoDup (map vi_addr l) -> In x l -> In y l -> vi_addr x = vi_addr y -> x = y).
    { clear. induction l as [|z l IH]; intros x y Hn Hx Hy He; [destruct Hx|]. cbn [map] in Hn. inversion Hn as [|? ? N1 N2]; subst.
      destruct Hx as [->|Hx], Hy as [->|Hy]; auto; exfalso; apply N1; [rewrite He|rewrite <- He]; apply in_map; auto. }
    eapply Hi; eauto. }
  subst v'. destruct Hpe as [Hall Hlen]; [exists v; rewrite Hst; auto|].
  assert (Hwc : In w chosen).
  { apply Hall. apply filter_In. split.
    - apply (Permutation_in _ (Permutation_sym (pool_perm reg))). apply filter_In. split; auto. unfold is_eligible. destruct Hws as [->| ->]; auto.
    - destruct Hws as [->| ->]; auto. }
  apply (Permutation_in _ (Permutation_sym (sort_addr_perm _))). rewrite firstn_all2.
  - apply in_map. apply (Permutation_in _ (Permutation_sym P2)). auto.
  - rewrite map_length, (Permutation_length P2). lia.
Qed.

(* With exactly as many eligible validators as seats, randomness does not matter. *)
Theorem C33_full_pool gen seed seed' size reg c c' :
  NoDup (map vi_addr reg) -> length (filter is_eligible reg) = size ->
  new_committee gen seed size reg = inl c -> new_committee gen seed' size reg = inl c' -> c = c'.
Proof.
  intros Hn Hl H H'. destruct (C33_committee_shape _ _ _ _ _ Hn H) as (A1 & A2 & A3). destruct (C33_committee_shape _ _ _ _ _ Hn H') as (B1 & B2 & B3).
  assert (Hall : forall c, StronglySorted N.lt c -> length c = size -> (forall a, In a c -> exists v, In v reg /\ vi_addr v = a /\ eligible v) ->
            forall a, In a c <-> In a (map vi_addr (filter is_eligible reg))).
  { clear - Hn Hl. intros c Hs Hlen Hc. assert (Hnc : NoDup c).
    { clear - Hs. induction Hs as [|x l Hs IH Hf]; constructor; auto. intros Hin. rewrite Forall_forall in Hf. specialize (Hf x Hin). lia. }
    assert (Hi : incl c (map vi_addr (filter is_eligible reg))).
    { intros a Ha. destruct (Hc a Ha) as (v & Hv & <- & He). apply in_map. apply filter_In. split; auto.
      unfold is_eligible. destruct He as [->|[->| ->]]; auto. }
    intros a. split; [apply Hi|]. apply NoDup_length_incl; auto. rewrite map_length, Hl, Hlen. auto. }
  apply sorted_perm_unique; auto. intros a. rewrite (Hall c A1 A2 A3 a), (Hall c' B1 B2 B3 a). tauto.
Qed.

(* The shuffle is unbiased: admissible sequences of draws correspond one to one to the orders of the pool. *)
Theorem C33_shuffle_one_to_one (l : list vinfo) :
  NoDup l -> l <> [] ->
  (forall g p, rng_ok g -> exists ds, draws_ok (length l - 1) ds /\ fisher_yates g p (length l - 1) l = fy_list (length l - 1) ds l) /\
  (forall q, Permutation q l -> exists ds, draws_ok (length l - 1) ds /\ fy_list (length l - 1) ds l = q) /\
  (forall ds ds', draws_ok (length l - 1) ds -> draws_ok (length l - 1) ds' ->
     fy_list (length l - 1) ds l = fy_list (length l - 1) ds' l -> ds = ds').
Proof.
  intros Hn Hne. assert (Hlt : length l - 1 < length l) by (destruct l; [congruence|simpl; lia]). split; [|split].
  - intros g p Hg. exists (draws_of g p (length l - 1)). split; [apply draws_of_ok; auto|apply fy_draws].
  - intros q Hp. apply fy_list_surj; auto. intros k Hk. pose proof (Permutation_length Hp).
    rewrite (proj2 (nth_error_None q k)) by lia. rewrite (proj2 (nth_error_None l k)) by lia. auto.
  - intros ds ds'. apply fy_list_inj; auto.
Qed.

(* a concrete run: six registered, one unstaked, two leaving; size 4 takes all three staying and one leaving *)
Definition reg6 : list vinfo :=
  [mk_vinfo 60 SActive; mk_vinfo 10 SPendingExit; mk_vinfo 30 SPendingActivation; mk_vinfo 40 SOther; mk_vinfo 20 SActive; mk_vinfo 50 SPendingExit].
Definition gen_ex (seed : N) : rng := fun p b => (N.to_nat seed + 7 * p) mod b.
Example C33_example :
  NoDup (map vi_addr reg6) /\ rng_ok (gen_ex 1) /\
  new_committee gen_ex 2 4 reg6 = inl [20; 30; 50; 60]%N /\ new_committee gen_ex 1 4 reg6 = inl [10; 20; 30; 60]%N /\
  new_committee gen_ex 1 2 reg6 = inl [30; 60]%N /\ new_committee gen_ex 1 6 reg6 = inr (EUndersized 6 5).
Proof.
  split; [repeat (constructor; [simpl; intuition discriminate|]); constructor|].
  split; [intros p b Hb; apply Nat.mod_upper_bound; lia|]. vm_compute. auto.
Qed.
