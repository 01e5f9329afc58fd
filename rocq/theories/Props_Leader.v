(* C13, C14: the leader swap table and the leader election. *)
From Verif Require Import Util Types CommitteeModel CommitteeProofs LeaderModel LeaderProofs Props_Committee.
Local Open Scope N_scope.

(* --- specification vocabulary --- *)
(* a score table reachable in the code: fresh for the committee, then points given to members *)
Inductive score_history (c : committee) : scores -> Prop :=
| sh_new : score_history c (scores_new c)
| sh_add s id v : score_history c s -> In id (member_ids c) -> score_history c (add_score s id v).
Definition finalised (s : scores) : scores := mkScores (sc_map s) true.
(* the integer square root only has to send 0 to 0 *)
Definition sqrt_ok (fsqrt : N -> N) : Prop := fsqrt 0 = 0.
(* SliceRandom::choose returns some element of a non-empty slice, and nothing for an empty one *)
Definition choose_ok (choose : list authority -> N -> option authority) : Prop :=
  forall l r, l <> [] -> exists a, choose l r = Some a /\ In a l.
Definition budget (c : committee) (pct : N) : N := N.max 1 (cm_size c * pct / 100).

Lemma scores_new_keys c : committee_wf c ->
  bm_sorted (sc_map (scores_new c)) /\ bm_keys (sc_map (scores_new c)) = member_ids c.
Proof.
  intros wf. assert (HS : bm_sorted (sc_map (scores_new c))) by apply bm_of_list_sorted.
  split; [exact HS|]. apply ssorted_ext; [exact HS|apply wf_ids_sorted; assumption|].
  intros x. unfold scores_new. cbn [sc_map]. rewrite bm_of_list_keys. rewrite map_map.
  unfold member_ids. reflexivity.
Qed.
Lemma add_score_keys s id v : bm_sorted (sc_map s) -> In id (bm_keys (sc_map s)) ->
  bm_sorted (sc_map (add_score s id v)) /\ bm_keys (sc_map (add_score s id v)) = bm_keys (sc_map s).
Proof.
  intros HS Hin.
  assert (forall w, bm_sorted (bm_insert id w (sc_map s)) /\
                    bm_keys (bm_insert id w (sc_map s)) = bm_keys (sc_map s)) as G.
  { intros w. pose proof (bm_insert_sorted id w _ HS) as HS'. split; [exact HS'|].
    apply ssorted_ext; [exact HS'|exact HS|]. intros x. rewrite bm_insert_keys.
    split; [intros [->|H]; assumption|auto]. }
  unfold add_score. destruct (bm_lookup id (sc_map s)); apply G.
Qed.
Lemma score_history_keys c s : committee_wf c -> score_history c s ->
  bm_sorted (sc_map s) /\ bm_keys (sc_map s) = member_ids c.
Proof.
  intros wf H. induction H as [|s id v H IH Hin]; [apply scores_new_keys; assumption|].
  destruct IH as [IH1 IH2]. destruct (add_score_keys s id v IH1) as [A B]; [rewrite IH2; assumption|].
  split; [exact A|]. rewrite B. exact IH2.
Qed.

Lemma table_facts c fsqrt round s pct : built c -> sqrt_ok fsqrt -> score_history c s -> pct <= 33 ->
  exists t, table_new fsqrt c round (finalised s) pct = Some t /\ st_round t = round /\
    NoDup (map a_id (st_bad t)) /\ NoDup (map a_id (st_good t)) /\
    ((st_bad t = [] /\ st_good t = []) \/
     exists ceil floor,
       ceil < floor /\ st_good t <> [] /\
       (forall a, In a (st_bad t) <-> In a (cm_authorities c) /\ score_of s (a_id a) <= ceil) /\
       (forall a, In a (st_good t) <-> In a (cm_authorities c) /\ floor <= score_of s (a_id a)) /\
       (N.of_nat (length (st_bad t)) <= budget c pct \/ ceil = 0) /\
       (budget c pct <= N.of_nat (length (st_good t)) \/ floor = ceil + 1)).
Proof.
  intros Hb Hq Hs Hp. pose proof (built_wf c Hb) as wf.
  destruct (score_history_keys c s wf Hs) as [A B].
  exact (table_new_spec c wf fsqrt round (finalised s) pct Hq A B eq_refl Hp).
Qed.

(* C13: the table can always be built, holds only members, and no member is both good and bad: every bad node
   scored strictly less than every good one. *)
Theorem C13_table_well_formed :
  forall c fsqrt round s pct, built c -> sqrt_ok fsqrt -> score_history c s -> pct <= 33 ->
  exists t, table_new fsqrt c round (finalised s) pct = Some t /\ st_round t = round /\
    NoDup (map a_id (st_bad t)) /\ NoDup (map a_id (st_good t)) /\
    (forall a, In a (st_bad t) \/ In a (st_good t) -> In a (cm_authorities c)) /\
    (forall a b, In a (st_bad t) -> In b (st_good t) ->
       a_id a <> a_id b /\ score_of s (a_id a) < score_of s (a_id b)) /\
    (st_bad t <> [] -> st_good t <> []).
Proof.
  intros c fsqrt round s pct Hb Hq Hs Hp.
  destruct (table_facts c fsqrt round s pct Hb Hq Hs Hp) as (t & E & R & N1 & N2 & H).
  exists t. do 4 (split; [assumption|]). destruct H as [[-> ->]|(ceil & floor & L & G & B1 & B2 & _)].
  - split; [intros a [[]|[]]|]. split; [intros a b []|]. auto.
  - split; [intros a [Ha|Ha]; [apply B1 in Ha|apply B2 in Ha]; apply Ha|].
    split; [|auto]. intros a b Ha Hb'. apply B1 in Ha as [_ Ha]. apply B2 in Hb' as [_ Hb'].
    split; [|lia]. intros X. rewrite X in Ha. lia.
Qed.
Print Assumptions C13_table_well_formed.

(* C13: whatever table the schedule holds (the default one or one built from final scores) every even round has
   a leader, it is a member, and it is not a bad node. *)
Theorem C13_leader_is_eligible :
  forall c fsqrt choose t, built c -> sqrt_ok fsqrt -> choose_ok choose ->
  (t = table_default \/ exists round s pct, score_history c s /\ pct <= 33 /\
                        table_new fsqrt c round (finalised s) pct = Some t) ->
  forall r, r mod 2 = 0 ->
  exists a, leader c choose t r = Some a /\ In a (cm_authorities c) /\
            forall b, In b (st_bad t) -> a_id b <> a_id a.
Proof.
  intros c fsqrt choose t Hb Hq Hc Ht r Hr. pose proof (built_wf c Hb) as wf.
  assert (T : (forall a, In a (st_bad t) \/ In a (st_good t) -> In a (cm_authorities c)) /\
    (forall a b, In a (st_bad t) -> In b (st_good t) -> a_id a <> a_id b) /\
    (st_bad t <> [] -> st_good t <> [])).
  { destruct Ht as [->|(round & s & pct & Hs & Hp & E)].
    - simpl. repeat split; intros; tauto.
    - destruct (C13_table_well_formed c fsqrt round s pct Hb Hq Hs Hp) as (t' & E' & _ & _ & _ & A & B & C).
      rewrite E in E'. inversion E'; subst t'. split; [exact A|]. split; [|exact C].
      intros a b Ha Hb'. apply (B a b Ha Hb'). }
  destruct T as (T1 & T2 & T3). unfold leader.
  rewrite (proj2 (N.eqb_eq _ _) Hr). cbn [negb].
  pose proof (wf_size c wf) as Hsz.
  destruct (N.eqb_spec (cm_size c) 0) as [E|_]; [lia|].
  assert (LEN : N.of_nat (length (cm_authorities c)) = cm_size c).
  { rewrite <- (member_ids_length c wf). unfold member_ids. rewrite map_length. reflexivity. }
  destruct (nth_error (cm_authorities c) (N.to_nat ((r / 2 - 1) mod cm_size c))) as [l|] eqn:E.
  2:{ apply nth_error_None in E. pose proof (N.mod_lt (r / 2 - 1) (cm_size c)). lia. }
  assert (Hl : In l (cm_authorities c)) by (eapply nth_error_In; eassumption).
  unfold swap. destruct (existsb (fun b => a_id b =? a_id l) (st_bad t)) eqn:EX.
  - apply existsb_exists in EX as (b & Hbad & _).
    destruct (Hc (st_good t) r) as (g & -> & Hg).
    { apply T3. intros X. rewrite X in Hbad. contradiction. }
    exists g. split; [reflexivity|]. split; [apply T1; right; assumption|].
    intros b' Hb'. apply (T2 b' g Hb' Hg).
  - exists l. split; [reflexivity|]. split; [assumption|].
    intros b Hb' X. assert (existsb (fun b => a_id b =? a_id l) (st_bad t) = true); [|congruence].
    apply existsb_exists. exists b. split; [assumption|]. apply N.eqb_eq. assumption.
Qed.
Print Assumptions C13_leader_is_eligible.

(* C13: with an empty bad list the schedule is the plain round robin over the identifier order, so in any n
   consecutive even rounds (from 2 on) every member leads exactly once. *)
Theorem C13_round_robin :
  forall c choose t, built c -> st_bad t = [] ->
  forall k, leader c choose t (2 * (k + 1)) = nth_error (cm_authorities c) (N.to_nat (k mod cm_size c)).
Proof.
  intros c choose t Hb Ht k. pose proof (built_wf c Hb) as wf. pose proof (wf_size c wf) as Hsz.
  unfold leader. replace (2 * (k + 1)) with ((k + 1) * 2) by lia.
  rewrite N.mod_mul, N.eqb_refl by lia. cbn [negb].
  destruct (N.eqb_spec (cm_size c) 0) as [E|_]; [lia|].
  rewrite N.div_mul by lia. replace (k + 1 - 1) with k by lia.
  destruct (nth_error (cm_authorities c) _); [|reflexivity].
  unfold swap. rewrite Ht. reflexivity.
Qed.
Print Assumptions C13_round_robin.

Theorem C13_every_member_leads :
  forall c choose t, built c -> st_bad t = [] ->
  forall k0 a, In a (cm_authorities c) ->
  exists k, k0 <= k < k0 + cm_size c /\ leader c choose t (2 * (k + 1)) = Some a /\
            forall k', k0 <= k' < k0 + cm_size c -> leader c choose t (2 * (k' + 1)) = Some a -> k' = k.
Proof.
  intros c choose t Hb Ht k0 a Ha. pose proof (built_wf c Hb) as wf. pose proof (wf_size c wf) as Hsz.
  assert (LEN : N.of_nat (length (cm_authorities c)) = cm_size c).
  { rewrite <- (member_ids_length c wf). unfold member_ids. rewrite map_length. reflexivity. }
  assert (ND : NoDup (cm_authorities c)).
  { apply (NoDup_map_inv a_id). apply (wf_ids_NoDup c wf). }
  destruct (In_nth_error _ _ Ha) as (i & Hi).
  assert (HiL : (i < length (cm_authorities c))%nat) by (apply nth_error_Some; congruence).
  set (n := cm_size c) in *.
  set (m := k0 mod n).
  assert (Hm : m < n) by (apply N.mod_lt; lia).
  assert (Hk0 : k0 = n * (k0 / n) + m) by (apply N.div_mod; lia).
  exists (k0 + (if m <=? N.of_nat i then N.of_nat i - m else n - m + N.of_nat i)).
  assert (MOD : forall q x, x < n -> (n * q + x) mod n = x).
  { intros q x Hx. rewrite N.add_comm, N.mul_comm, N.mod_add by lia. apply N.mod_small. assumption. }
  split; [destruct (N.leb_spec m (N.of_nat i)); lia|]. split.
  - rewrite C13_round_robin by assumption. fold n.
    replace ((k0 + (if m <=? N.of_nat i then N.of_nat i - m else n - m + N.of_nat i)) mod n) with (N.of_nat i).
    { rewrite Nat2N.id. assumption. }
    symmetry. destruct (N.leb_spec m (N.of_nat i)).
    + replace (k0 + (N.of_nat i - m)) with (n * (k0 / n) + N.of_nat i) by lia. apply MOD. lia.
    + replace (k0 + (n - m + N.of_nat i)) with (n * (k0 / n + 1) + N.of_nat i) by lia. apply MOD. lia.
  - intros k' Hk' Hl. rewrite C13_round_robin in Hl by assumption. fold n in Hl.
    assert (E : N.to_nat (k' mod n) = i).
    { apply (proj1 (NoDup_nth_error (cm_authorities c)) ND); [|congruence].
      pose proof (N.mod_lt k' n). lia. }
    assert (E' : k' mod n = N.of_nat i) by lia.
    pose proof (N.div_mod k' n ltac:(lia)) as D. rewrite E' in D.
    set (q' := k' / n) in *. set (q := k0 / n) in *.
    assert (q' = q \/ q' = q + 1) as [->| ->] by nia;
    destruct (N.leb_spec m (N.of_nat i)); nia.
Qed.
Print Assumptions C13_every_member_leads.

(* C13: when any node is bad, at least `budget` nodes are good, or else every non-bad member is good. *)
Theorem C13_enough_good_nodes :
  forall c fsqrt round s pct t, built c -> sqrt_ok fsqrt -> score_history c s -> pct <= 33 ->
  table_new fsqrt c round (finalised s) pct = Some t -> st_bad t <> [] ->
  budget c pct <= N.of_nat (length (st_good t)) \/
  (forall a, In a (cm_authorities c) -> In a (st_bad t) \/ In a (st_good t)).
Proof.
  intros c fsqrt round s pct t Hb Hq Hs Hp E HB.
  destruct (table_facts c fsqrt round s pct Hb Hq Hs Hp) as (t' & E' & _ & _ & _ & H).
  rewrite E in E'. inversion E'; subst t'.
  destruct H as [[X _]|(ceil & floor & L & G & B1 & B2 & _ & [X|X])]; [contradiction|left; assumption|].
  right. intros a Ha. destruct (N.le_gt_cases (score_of s (a_id a)) ceil) as [Y|Y].
  - left. apply B1. auto.
  - right. apply B2. split; [assumption|lia].
Qed.
Print Assumptions C13_enough_good_nodes.

(* C14.  The documented budget (length bad <= max 1 (N * pct / 100)) is FALSE of the code: C14_budget_refuted.
   The exact rule: no bad node at all, or the budget is kept and no more than the budget scored zero, or more members
   than the budget scored zero and the bad nodes are exactly these. *)
Definition zero_scorers (c : committee) (s : scores) : list authority :=
  filter (fun a => score_of s (a_id a) =? 0) (cm_authorities c).
Theorem C14_bad_budget_exact :
  forall c fsqrt round s pct t, built c -> sqrt_ok fsqrt -> score_history c s -> pct <= 33 ->
  table_new fsqrt c round (finalised s) pct = Some t ->
  st_bad t = [] \/
  (N.of_nat (length (st_bad t)) <= budget c pct /\ N.of_nat (length (zero_scorers c s)) <= budget c pct) \/
  (budget c pct < N.of_nat (length (st_bad t)) /\ budget c pct < N.of_nat (length (zero_scorers c s)) /\
   forall a, In a (st_bad t) <-> In a (cm_authorities c) /\ score_of s (a_id a) = 0).
Proof.
  intros c fsqrt round s pct t Hb Hq Hs Hp E.
  destruct (table_facts c fsqrt round s pct Hb Hq Hs Hp) as (t' & E' & _ & N1 & _ & H).
  rewrite E in E'. inversion E'; subst t'.
  assert (Z : forall a, In a (zero_scorers c s) <-> In a (cm_authorities c) /\ score_of s (a_id a) = 0).
  { intros a. unfold zero_scorers. rewrite filter_In, N.eqb_eq. reflexivity. }
  assert (NZ : NoDup (zero_scorers c s)).
  { apply NoDup_filter, (NoDup_map_inv a_id), (wf_ids_NoDup c (built_wf c Hb)). }
  assert (NB : NoDup (st_bad t)) by (apply (NoDup_map_inv a_id); exact N1).
  destruct H as [[X _]|(ceil & floor & L & G & B1 & B2 & X & _)]; [left; exact X|right].
  assert (I : incl (zero_scorers c s) (st_bad t)).
  { intros a Ha. apply Z in Ha as [Ha1 Ha2]. apply B1. split; [exact Ha1|lia]. }
  pose proof (NoDup_incl_length NZ I) as LZ.
  destruct (N.le_gt_cases (N.of_nat (length (st_bad t))) (budget c pct)) as [Y|Y]; [left; split; lia|].
  destruct X as [X|X]; [exfalso; apply N.lt_nge in Y; exact (Y X)|]. subst ceil. right. split; [exact Y|].
  assert (B : forall a, In a (st_bad t) <-> In a (cm_authorities c) /\ score_of s (a_id a) = 0).
  { intros a. rewrite B1. assert (score_of s (a_id a) <= 0 <-> score_of s (a_id a) = 0) by lia. tauto. }
  split; [|exact B]. assert (I2 : incl (st_bad t) (zero_scorers c s)) by (intros a Ha; apply Z, B, Ha).
  pose proof (NoDup_incl_length NB I2). lia.
Qed.
Print Assumptions C14_bad_budget_exact.

(* so a member that scored at all is bad only within the budget, and at least one member is never bad *)
Theorem C14_scoring_members_within_budget :
  forall c fsqrt round s pct t, built c -> sqrt_ok fsqrt -> score_history c s -> pct <= 33 ->
  table_new fsqrt c round (finalised s) pct = Some t ->
  forall a, In a (st_bad t) -> 0 < score_of s (a_id a) -> N.of_nat (length (st_bad t)) <= budget c pct.
Proof.
  intros c fsqrt round s pct t Hb Hq Hs Hp E a Ha Sc.
  destruct (C14_bad_budget_exact c fsqrt round s pct t Hb Hq Hs Hp E) as [X|[[X _]|(_ & _ & X)]].
  - rewrite X in Ha. destruct Ha.
  - exact X.
  - apply X in Ha as [_ Ha]. lia.
Qed.
Theorem C14_never_everybody :
  forall c fsqrt round s pct t, built c -> sqrt_ok fsqrt -> score_history c s -> pct <= 33 ->
  table_new fsqrt c round (finalised s) pct = Some t -> N.of_nat (length (st_bad t)) < cm_size c.
Proof.
  intros c fsqrt round s pct t Hb Hq Hs Hp E. pose proof (built_wf c Hb) as wf. pose proof (wf_size c wf) as Hsz.
  destruct (C13_table_well_formed c fsqrt round s pct Hb Hq Hs Hp) as (t' & E' & _ & N1 & _ & A & B & C).
  rewrite E in E'. inversion E'; subst t'.
  destruct (st_bad t) as [|x l] eqn:EB; [simpl; lia|]. rewrite <- EB in *.
  destruct (st_good t) as [|g gs] eqn:EG; [exfalso; apply C; [rewrite EB; discriminate|reflexivity]|].
  assert (ND : NoDup (map a_id (g :: st_bad t))).
  { cbn [map]. constructor; [|exact N1]. intros H. apply in_map_iff in H as (b & H1 & H2).
    destruct (B b g H2 (or_introl eq_refl)) as [Y _]. exact (Y H1). }
  assert (I : incl (map a_id (g :: st_bad t)) (member_ids c)).
  { intros i Hi. apply in_map_iff in Hi as (b & <- & Hb'). apply in_map. apply A. destruct Hb' as [<-|Hb']; [right; left; reflexivity|left; exact Hb']. }
  pose proof (NoDup_incl_length ND I) as LL. pose proof (member_ids_length c wf). rewrite map_length in LL. cbn [length] in LL. lia.
Qed.

(* The documented budget is refuted: in a committee of four, two members that never get a point are both marked
   bad although the budget for 33 percent is one. *)
Definition ex4_entries : list (N * N) := [(10,1);(20,2);(30,3);(40,4)].
Fixpoint give (n : nat) (id : N) (s : scores) : scores :=
  match n with O => s | S n => give n id (add_score s id 1) end.
Lemma give_history c n id : forall s, score_history c s -> In id (member_ids c) -> score_history c (give n id s).
Proof. induction n; simpl; intros s H Hin; [assumption|]. apply IHn; [constructor; assumption|assumption]. Qed.

Theorem C14_budget_refuted :
  exists c s t, built c /\ cm_size c = 4 /\ score_history c s /\
    table_new N.sqrt c 20 (finalised s) 33 = Some t /\
    budget c 33 = 1 /\ N.of_nat (length (st_bad t)) = 2.
Proof.
  destruct (build ex_idof 3 ex4_entries) as [c|] eqn:E; [|vm_compute in E; discriminate].
  assert (Hb : built c) by (exists ex_idof, 3, ex4_entries; assumption).
  vm_compute in E. inversion E; subst c. clear E.
  match goal with |- exists c s t, _ => idtac end.
  match type of Hb with built ?c =>
    exists c, (give 10 8 (give 10 39 (scores_new c))) end.
  eexists. split; [exact Hb|]. split; [vm_compute; reflexivity|]. split.
  { apply give_history; [apply give_history; [constructor|]|]; vm_compute; tauto. }
  split; [vm_compute; reflexivity|]. split; vm_compute; reflexivity.
Qed.
Print Assumptions C14_budget_refuted.

(* Non-vacuity for C13: a seven-member committee where one node lags; it is bad and replaced when it leads. *)
Example C13_example :
  exists c s t, built c /\ score_history c s /\ sqrt_ok N.sqrt /\
    choose_ok (fun l _ => hd_error l) /\
    table_new N.sqrt c 20 (finalised s) 33 = Some t /\
    map a_id (st_bad t) = [39] /\ length (st_good t) = 6%nat /\
    option_map a_id (leader c (fun l _ => hd_error l) table_default 6) = Some 39 /\
    option_map a_id (leader c (fun l _ => hd_error l) t 6) = Some 86.
Proof.
  destruct (build ex_idof 3 ex_entries) as [c|] eqn:E; [|vm_compute in E; discriminate].
  assert (Hb : built c) by (exists ex_idof, 3, ex_entries; assumption).
  vm_compute in E. inversion E; subst c. clear E.
  match type of Hb with built ?c =>
    exists c, (give 10 8 (give 10 16 (give 10 47 (give 10 70 (give 10 78 (give 10 86 (scores_new c))))))) end.
  eexists. split; [exact Hb|]. split.
  { repeat (apply give_history; [|vm_compute; tauto]). constructor. }
  split; [reflexivity|]. split; [intros [|a l] r H; [contradiction|exists a; simpl; auto]|].
  split; [vm_compute; reflexivity|]. vm_compute. repeat split; reflexivity.
Qed.

(* Both sides of C14_bad_budget_exact occur: within the budget (C13_example), beyond it (C14_budget_refuted), and as far
   beyond as C14_never_everybody allows: one member scored, all six others are bad and it leads every round. *)
Example C14_extreme :
  exists c s t, built c /\ score_history c s /\ table_new N.sqrt c 20 (finalised s) 33 = Some t /\
    cm_size c = 7 /\ budget c 33 = 2 /\ length (st_bad t) = 6%nat /\ map a_id (st_good t) = [8].
Proof.
  destruct (build ex_idof 3 ex_entries) as [c|] eqn:E; [|vm_compute in E; discriminate].
  assert (Hb : built c) by (exists ex_idof, 3, ex_entries; assumption).
  vm_compute in E. inversion E; subst c. clear E.
  match type of Hb with built ?c => exists c, (give 10 8 (scores_new c)) end.
  eexists. split; [exact Hb|]. split.
  { apply give_history; [constructor|vm_compute; tauto]. }
  split; [vm_compute; reflexivity|]. vm_compute. repeat split; reflexivity.
Qed.
