(** C08 outside its restart hypothesis.  A node that restarts from a chain whose newest final scores are more than
    1000 commits old falls back to the default leader schedule (consensus_pack.rs 1269-1287, leader_schedule.rs
    262-281) while the nodes that stayed up keep the swap table, and the two then order different leaders.  The chain
    needed is reachable with the production schedule length of 60: with four members the final slot is always led by
    the same member, so when that member is down no commit is final any more. *)
From Verif Require Import Util Types CommitteeModel CommitteeProofs CertModel LeaderModel GasModel BullModel BullSpec Props_Bull.
Local Open Scope N_scope.

Definition wc : committee := match build (fun k => k) 0 [(1,1);(2,2);(3,3);(4,4)] with Some c => c | None => mkCommittee 0 [] [] 0 0 end.
Lemma wc_built : built wc.
Proof. exists (fun k => k), 0, [(1,1);(2,2);(3,3);(4,4)]. vm_compute. reflexivity. Qed.
Definition w_last : N := 119.     (* member 3's last round *)
Definition w_dig (r i : N) : N := r * 10 + i.
(* members 1..4; member 4 never names the scheduled leader; member 3 stops after round [w_last] *)
Definition w_authors (r : N) : list N := if r <=? w_last then [1;2;3;4] else [1;2;4].
Definition w_parents (r i : N) : list N :=
  if r <=? 1 then []
  else if r <=? w_last
       then (if (i =? 4) && (r mod 2 =? 1) then filter (fun j => negb (j =? (r / 2 - 1) mod 4 + 1)) [1;2;3;4] else [1;2;3;4])
       else [1;2;4].
Definition w_hdr (r i : N) : header :=
  mkHeader i r 0 (100 + r) [] (map (w_dig (r - 1)) (w_parents r i)) 0 0 (r + i) (w_dig r i).
Definition w_cert (r i : N) : cert := mkCert (w_hdr r i) (VerifiedDirectly 7) [].
Definition w_G (h : header) : Prop := exists r i, 1 <= r /\ In i (w_authors r) /\ h = w_hdr r i.
Definition w_S : setting :=
  mkSetting N.sqrt (fun l _ => hd_error (rev l)) (fun v r g => (v + r * 7 + g) mod 1000) (fun g => g) (fun e => e + 1) (fun e => true)
            wc 50 60 33.
Fixpoint w_rounds (n : nat) (r : N) : list cert :=
  match n with O => [] | S n => map (w_cert r) (w_authors r) ++ w_rounds n (r + 1) end.
Definition w_start : bstate := mkB 0 0 [] None [] (S_root w_S 0) table_default.

Lemma w_authors_lt r i : In i (w_authors r) -> i = 1 \/ i = 2 \/ i = 3 \/ i = 4.
Proof. unfold w_authors. destruct (r <=? w_last); cbn; intuition. Qed.
Lemma w_parents_authors r i j : 2 <= r -> In j (w_parents r i) -> In j (w_authors (r - 1)).
Proof.
  intros R. unfold w_parents, w_authors. destruct (N.leb_spec r 1); [lia|].
  destruct (N.leb_spec r w_last), (N.leb_spec (r - 1) w_last); try lia.
  - destruct ((i =? 4) && (r mod 2 =? 1)); [rewrite filter_In; intros [A _]; exact A|auto].
  - cbn. intuition.
  - auto.
Qed.
Lemma w_parents_quorum r i : 2 <= r -> NoDup (w_parents r i) /\ 3 <= group_power wc (w_parents r i).
Proof.
  intros R. unfold w_parents. destruct (N.leb_spec r 1); [lia|].
  assert (F : NoDup [1;2;3;4] /\ 3 <= group_power wc [1;2;3;4]).
  { split; [apply nodupb_ok; reflexivity|vm_compute; discriminate]. }
  destruct (r <=? w_last).
  - destruct ((i =? 4) && (r mod 2 =? 1)); [|exact F].
    assert (M : (r / 2 - 1) mod 4 < 4) by (apply N.mod_lt; lia). set (m := (r / 2 - 1) mod 4) in *. clearbody m.
    assert (C : m = 0 \/ m = 1 \/ m = 2 \/ m = 3) by lia.
    destruct C as [-> | [-> | [-> | ->]]]; (split; [apply nodupb_ok; reflexivity|vm_compute; discriminate]).
  - split; [apply nodupb_ok; reflexivity|vm_compute; discriminate].
Qed.
Lemma w_ok : setting_ok w_S w_G /\ past_fork w_S w_G.
Proof.
  split; [|intros h _; reflexivity]. split; [exact wc_built|]. split; [reflexivity|].
  split. { intros l r H. cbn. destruct (rev l) as [|a t] eqn:E; [|exists a; split; [reflexivity|apply in_rev; rewrite E; left; reflexivity]].
           exfalso. apply H. rewrite <- (rev_involutive l), E. reflexivity. }
  split; [vm_compute; discriminate|]. split; [vm_compute; discriminate|]. constructor.
  - intros h (r & i & _ & Hi & ->). apply w_authors_lt in Hi. vm_compute. intuition.
  - intros h1 h2 (r1 & i1 & _ & H1 & ->) (r2 & i2 & _ & H2 & ->) E. cbn [h_digest w_hdr] in E. unfold w_dig in E.
    apply w_authors_lt in H1, H2. assert (r1 = r2) by lia. assert (i1 = i2) by lia. subst. reflexivity.
  - intros h1 h2 (r1 & i1 & _ & H1 & ->) (r2 & i2 & _ & H2 & ->) E1 E2. cbn in E1, E2. subst. reflexivity.
  - intros h (r & i & R1 & Hi & ->) R. cbn [h_round w_hdr] in R.
    destruct (w_parents_quorum r i R) as [ND Q]. exists (map (w_hdr (r - 1)) (w_parents r i)).
    assert (EA : map h_author (map (w_hdr (r - 1)) (w_parents r i)) = w_parents r i).
    { rewrite map_map. cbn [h_author w_hdr]. apply map_id. }
    rewrite EA. split; [exact ND|]. split; [exact Q|].
    intros p Hp. apply in_map_iff in Hp as (j & <- & Hj). split.
    { exists (r - 1), j. split; [lia|]. split; [eapply w_parents_authors; eassumption|reflexivity]. }
    cbn [h_round h_digest h_parents w_hdr]. split; [lia|]. apply in_map. exact Hj.
Qed.
Lemma w_rounds_in n r x : In x (w_rounds n r) <-> exists q i, r <= q /\ q < r + N.of_nat n /\ In i (w_authors q) /\ x = w_cert q i.
Proof.
  revert r. induction n as [|n IH]; intros r; cbn [w_rounds].
  - split; [intros []|]. intros (q & i & A & B & _). lia.
  - rewrite in_app_iff, in_map_iff, IH. split.
    + intros [(i & <- & Hi)|(q & i & A & B & C & D)]; [exists r, i|exists q, i]; repeat split; try assumption; lia.
    + intros (q & i & A & B & C & D). destruct (N.eq_dec q r) as [->|NE]; [left; exists i; auto|right; exists q, i; repeat split; try assumption; lia].
Qed.
Lemma w_rounds_G n r x : 1 <= r -> In x (w_rounds n r) -> w_G (c_header x).
Proof. intros R H. apply w_rounds_in in H as (q & i & A & B & C & ->). exists q, i. repeat split; [lia|exact C]. Qed.
Lemma w_store : store_ok w_G 2738 (w_rounds 53 2739).
Proof.
  split; [intros x; apply w_rounds_G; lia|].
  intros x H R p Hp. apply w_rounds_in in H as (q & i & A & B & C & ->). cbn in R. cbn [c_parents c_header w_cert h_parents w_hdr] in Hp.
  apply in_map_iff in Hp as (j & <- & Hj). exists (w_cert (q - 1) j). split; [|split; [cbn; lia|reflexivity]].
  apply w_rounds_in. exists (q - 1), j. repeat split; try lia. eapply w_parents_authors; [|exact Hj]. lia.
Qed.
Lemma w_node0 : node w_S w_G w_start [].
Proof. apply r_start with (certs := []); [split; intros x []|]. vm_compute. reflexivity. Qed.

(* the live run, the restart from its whole chain, and two more rounds of certificates for both *)
Definition w_facts (r : option (bstate * list subdag)) : bool :=
  match r with
  | Some (s, c) =>
      (chain_round c =? 2788) &&
      match restart w_S c (w_rounds 53 2739) with
      | Some s' =>
          match feed_all w_S s (w_rounds 2 2792), feed_all w_S s' (w_rounds 2 2792) with
          | Some (_, d1 :: _), Some (_, d2 :: _) =>
              (h_author (sd_leader d1) =? 1) && (h_author (sd_leader d2) =? 4) &&
              (sd_round d1 =? 2792) && (sd_round d2 =? 2792)
          | _, _ => false
          end
      | None => false
      end
  | None => false
  end.
Notation w_run := (feed_all w_S w_start (w_rounds 2791 1)).
Lemma w_run_facts : w_facts w_run = true.
Proof. vm_compute. reflexivity. Qed.

Theorem C08_restart_outside_window_refuted :
  exists S G s c certs s' xs s1 d1 ds1 s2 d2 ds2,
    setting_ok S G /\ past_fork S G /\ S_num S = 60 /\ node S G s c /\
    store_ok G (chain_round c - S_depth S) certs /\ restart S c certs = Some s' /\
    (forall x, In x xs -> G (c_header x)) /\
    feed_all S s xs = Some (s1, d1 :: ds1) /\ feed_all S s' xs = Some (s2, d2 :: ds2) /\
    sd_round d1 = sd_round d2 /\ h_author (sd_leader d1) <> h_author (sd_leader d2).
Proof.
  pose proof w_run_facts as F. destruct w_run as [[s c]|] eqn:E; [|discriminate F]. cbn [w_facts] in F.
  apply andb_true_iff in F as [F1 F]. apply N.eqb_eq in F1.
  destruct (restart w_S c (w_rounds 53 2739)) as [s'|] eqn:R; [|discriminate F].
  destruct (feed_all w_S s (w_rounds 2 2792)) as [[s1 [|d1 ds1]]|] eqn:E1; try discriminate F.
  destruct (feed_all w_S s' (w_rounds 2 2792)) as [[s2 [|d2 ds2]]|] eqn:E2; try discriminate F.
  repeat rewrite andb_true_iff in F. destruct F as [[[A1 A2] A3] A4]. apply N.eqb_eq in A1, A2, A3, A4.
  exists w_S, w_G, s, c, (w_rounds 53 2739), s', (w_rounds 2 2792), s1, d1, ds1, s2, d2, ds2.
  split; [apply w_ok|]. split; [apply w_ok|]. split; [reflexivity|].
  split. { change c with ([] ++ c). exact (feed_all_node w_S w_G (w_rounds 2791 1) w_start [] s c w_node0 (fun x => w_rounds_G 2791 1 x (N.le_refl 1)) E). }
  split. { rewrite F1. change (2788 - S_depth w_S) with 2738. exact w_store. }
  split; [exact R|]. split; [intros x; apply w_rounds_G; lia|]. split; [exact E1|]. split; [exact E2|].
  split; [rewrite A3, A4; reflexivity|rewrite A1, A2; discriminate].
Qed.
Print Assumptions C08_restart_outside_window_refuted.
