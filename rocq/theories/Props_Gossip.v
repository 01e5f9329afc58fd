(* C27: gossiped consensus results and epoch votes.  Every schedule of the concurrent handlers is covered: a run is any
   list of arrivals, task steps and publications by other tasks. *)
From Verif Require Import Util GossipModel GossipSpec GossipProofs GossipProofs2.

(* A published result was signed, exactly as it is (epoch, round, number and hash), by more than a third of the epoch's
   committee: distinct members, each with a valid signature that arrived. *)
Theorem C27_published_has_validity E pub evs fx s m :
  genv_ok E -> grun E (g_init pub) evs = (fx, s) -> In (GPublish m) fx ->
  exists ks, NoDup ks /\ length (ge_com E (gm_epoch m)) < 3 * length ks /\
             forall k, In k ks -> signed_result E evs m k.
Proof.
  intros OK Hr Hp. destruct (grun_inv E _ _ _ _ _ (init_inv E pub) Hr) as [_ H].
  destruct (H m Hp) as (ks & K1 & K2 & K3). exists ks. split; auto. split.
  - pose proof (Nat.div_mod (length (ge_com E (gm_epoch m))) 3). pose proof (Nat.mod_upper_bound (length (ge_com E (gm_epoch m))) 3). lia.
  - intros k Hk. apply backed_signed; auto.
Qed.

(* So when less than a third of the committee is faulty, an honest member signed it. *)
Theorem C27_published_has_honest E pub evs fx s m faulty :
  genv_ok E -> grun E (g_init pub) evs = (fx, s) -> In (GPublish m) fx ->
  3 * length (interN (ge_com E (gm_epoch m)) faulty) < length (ge_com E (gm_epoch m)) ->
  exists k, signed_result E evs m k /\ ~ In k faulty.
Proof.
  intros OK Hr Hp Hf. destruct (C27_published_has_validity _ _ _ _ _ _ OK Hr Hp) as (ks & K1 & K2 & K3).
  destruct (existsb (fun k => negb (memN k faulty)) ks) eqn:Ex.
  - apply existsb_exists in Ex as (k & H1 & H2). exists k. split; auto. apply memN_nIn. destruct (memN k faulty); auto; discriminate.
  - exfalso. assert (Hin : incl ks (interN (ge_com E (gm_epoch m)) faulty)).
    { intros k Hk. unfold interN. apply filter_In. split; [apply K3; auto|].
      destruct (memN k faulty) eqn:Ek; auto. assert (existsb (fun k => negb (memN k faulty)) ks = true); [|congruence].
      apply existsb_exists. exists k. rewrite Ek. auto. }
    pose proof (NoDup_incl_length K1 Hin). lia.
Qed.

(* The tally map never exceeds its cap. *)
Theorem C27_map_capped E pub evs fx s C :
  (forall e, length (ge_com E e) <= C) -> grun E (g_init pub) evs = (fx, s) -> length (g_tal s) <= Nat.max C 20.
Proof. intros HC Hr. eapply (grun_len E evs); [exact HC| |exact Hr]. simpl. lia. Qed.

(* The published number never goes back. *)
Theorem C27_published_number_grows E s evs fx s' :
  grun E s evs = (fx, s') -> (pub_number (g_pub s) <= pub_number (g_pub s'))%N.
Proof. apply grun_mono. Qed.

(* A member creates at most two live tallies per consensus number, however many results it signs. *)
Theorem C27_two_tallies_per_number E pub evs fx s k n :
  genv_ok E -> grun E (g_init pub) evs = (fx, s) ->
  length (filter (fun e => N.eqb (t_number (snd e)) n && N.eqb (hd 0%N (t_signers (snd e))) k) (g_tal s)) <= 2.
Proof.
  intros OK Hr.
  set (B := flat_map (fun e => match e with GArrive m => [gm_key m] | _ => [] end) evs).
  set (NS := flat_map (fun e => match e with GArrive m => [gm_number m] | _ => [] end) evs).
  assert (Hd : honest_discipline E B NS (fun _ => 0%N) evs).
  { intros m Hm _. split; [|left]; apply in_flat_map; exists (GArrive m); simpl; auto. }
  destruct (grun_crowd_any E B NS (fun _ => 0%N) evs evs [] _ _ _ OK Hd (incl_refl _) (init_inv E pub) (init_crowd B NS _ pub)
              (fun d t (H : In (d, t) []) => match H with end) Hr) as [Hc _].
  apply Hc.
Qed.

(* Faulty members cannot crowd out: when the live consensus numbers are few enough for the cap (for one number this holds
   for every committee with less than a third faulty, below), nothing is evicted; what was counted stays until a
   quorum clears the map. *)
Theorem C27_not_crowded_out E B NS res pub evs fx s :
  genv_ok E -> honest_discipline E B NS res evs ->
  (forall ep, length NS * (2 * length B + 1) <= Nat.max (length (ge_com E ep)) 20) ->
  grun E (g_init pub) evs = (fx, s) -> forall d, ~ In (GEvict d) fx.
Proof.
  intros OK Hd Hcap Hr.
  destruct (grun_crowd E OK B NS res evs evs [] _ _ _ Hd (incl_refl _) Hcap (init_inv E pub) (init_crowd B NS res pub)
              (fun d t (H : In (d, t) []) => match H with end) Hr) as [H _]. exact H.
Qed.

Theorem C27_one_number_fits n f : 3 * f < n -> 1 * (2 * f + 1) <= Nat.max n 20.
Proof. lia. Qed.

(* An honest member's valid signature is counted whenever its handler reaches the tally, however the faulty ones
   equivocate. *)
Theorem C27_honest_never_throttled E B NS res pub evs fx s i m known behind fx1 s1 :
  genv_ok E -> honest_discipline E B NS res evs -> grun E (g_init pub) evs = (fx, s) ->
  nth_error (g_tasks s) i = Some (TTally m) -> ~ In (gm_key m) B ->
  gstep E s (GRun i known behind) = (fx1, s1) -> In (GCounted m) fx1.
Proof.
  intros OK Hd Hr Hn Hk Hs.
  destruct (grun_inv E _ _ _ _ _ (init_inv E pub) Hr) as [Hi _]. cbn [app] in Hi.
  destruct (grun_crowd_any E B NS res evs evs [] _ _ _ OK Hd (incl_refl _) (init_inv E pub) (init_crowd B NS res pub)
              (fun d t (H : In (d, t) []) => match H with end) Hr) as [_ Hnum].
  pose proof (honest_held E B NS res evs evs s (gm_key m) (gm_number m) OK Hd (incl_refl _) Hi Hnum Hk) as Hh.
  cbn [gstep] in Hs. rewrite Hn in Hs. cbn [run_task] in Hs.
  destruct (tally_section E (g_tal s) m) as [[fx0 l2] full] eqn:Et. injection Hs as <- <-.
  unfold tally_section in Et; cbv zeta in Et.
  replace (MAX_TALLIES_PER_SIGNER_PER_NUMBER <=? held (g_tal s) (gm_key m) (gm_number m)) with false in Et
    by (symmetry; apply Nat.leb_gt; unfold MAX_TALLIES_PER_SIGNER_PER_NUMBER; lia).
  rewrite andb_false_r in Et.
  match type of Et with (let '(_, _) := ?p in _) = _ => destruct p as [fx2 l1] end. injection Et as <- <- <-. apply in_app_iff. simpl; auto.
Qed.

(* Once more than a third of the committee has been counted for one result, and the map was not cleared meanwhile, the
   result is published, or this node saw that it is behind, or the handler that will decide is running. *)
Theorem C27_counted_quorum_gets_out E B NS res pub evs fx s m ks :
  genv_ok E -> NoDup B -> honest_discipline E B NS res evs ->
  (forall ep, length NS * (2 * length B + 1) <= Nat.max (length (ge_com E ep)) 20) ->
  grun E (g_init pub) evs = (fx, s) -> ~ In GCleared fx ->
  NoDup ks -> length (ge_com E (gm_epoch m)) / 3 + 1 <= length ks ->
  (forall k, In k ks -> exists sig, In (GCounted (mk_gmsg (gm_epoch m) (gm_round m) (gm_number m) (gm_hash m) k sig)) fx) ->
  exists m', gm_epoch m' = gm_epoch m /\ gm_round m' = gm_round m /\ gm_number m' = gm_number m /\ gm_hash m' = gm_hash m /\
    (In (GPublish m') fx \/ In (GBehind m') fx \/ In (TBehind m') (g_tasks s)).
Proof.
  intros OK HB Hd Hcap Hr Hcl Hks Hlen Hcount.
  assert (Hc0 : cinv E (g_init pub) []) by (constructor; simpl; tauto).
  destruct (grun_cinv E B NS res evs evs [] _ [] _ _ OK HB Hd (incl_refl _) Hcap (init_inv E pub) (init_crowd B NS res pub)
              (fun d t (H : In (d, t) []) => match H with end) Hc0 Hr Hcl) as [[C1 C2] Hi]. cbn [app] in *.
  assert (Ht : exists t, In (gm_dig E m, t) (g_tal s) /\ forall k, In k ks -> In k (t_signers t)).
  { destruct ks as [|k0 ks0]; [simpl in Hlen; lia|].
    destruct (Hcount k0 (or_introl eq_refl)) as [sg0 H0]. destruct (C1 _ H0) as (t & T1 & _).
    change (gm_dig E (mk_gmsg (gm_epoch m) (gm_round m) (gm_number m) (gm_hash m) k0 sg0)) with (gm_dig E m) in T1.
    exists t. split; auto. intros k Hk. destruct (Hcount k Hk) as [sg H1]. destruct (C1 _ H1) as (t' & T3 & T4).
    change (gm_dig E (mk_gmsg (gm_epoch m) (gm_round m) (gm_number m) (gm_hash m) k sg)) with (gm_dig E m) in T3. cbn [gm_key] in T4.
    pose proof (gi_nd _ _ _ Hi) as Hnd. pose proof (tget_uniq res _ _ _ Hnd T1) as U1. pose proof (tget_uniq res _ _ _ Hnd T3) as U3. congruence. }
  destruct Ht as (t & T1 & T2).
  destruct (C2 m t T1) as (m' & M1 & M2).
  { pose proof (NoDup_incl_length Hks T2). lia. }
  unfold gm_dig in M1. apply (go_dig E OK) in M1 as (H1 & H2 & H3 & H4). exists m'. tauto.
Qed.

(* ---------- epoch votes ---------- *)
(* A vote is forwarded only when the record of its epoch is known and not certified, the vote is for exactly that record,
   the signer is in its committee, and the signature is valid; and not twice while it is remembered. *)
Theorem C27_vote_gate vrfy cap rec l v l' :
  on_vote vrfy cap rec l v = (VForward v, l') ->
  exists r, rec = Some r /\ vr_dig r = ev_hash v /\ In (ev_key v) (vr_com r) /\ vrfy (ev_hash v) (ev_key v) (ev_sig v) = true /\
            ~ In (ev_key v, ev_epoch v) (map fst l) /\ In (ev_key v, ev_epoch v) (map fst l').
Proof.
  unfold on_vote. destruct rec as [r|]; [|discriminate].
  destruct (N.eqb (vr_dig r) (ev_hash v)) eqn:E1; cbn [negb]; [|discriminate].
  destruct (memN (ev_key v) (vr_com r)) eqn:E2; cbn [negb]; [|discriminate].
  destruct (seen_has l (ev_key v, ev_epoch v)) eqn:E3; [discriminate|].
  destruct (vrfy (ev_hash v) (ev_key v) (ev_sig v)) eqn:E4; cbn [negb]; [|discriminate].
  intros H. injection H as <-. exists r. apply N.eqb_eq in E1. apply memN_In in E2.
  split; auto. split; auto. split; auto. split; auto. split.
  - intros Hin. apply seen_has_In in Hin. congruence.
  - unfold record_vote. cbn [map fst]. left; auto.
Qed.

(* the memory of seen votes is bounded, whatever votes arrive against whatever records *)
Theorem C27_votes_capped vrfy cap vs os l : 0 < cap -> run_votes vrfy cap [] vs = (os, l) -> length l <= cap.
Proof.
  intros Hc. assert (H : forall vs l0 os l, length l0 <= cap -> run_votes vrfy cap l0 vs = (os, l) -> length l <= cap).
  { clear vs os l. induction vs as [|[r v] vs IH]; intros l0 os l Hl; cbn [run_votes].
    - intros H; injection H as <- <-. auto.
    - destruct (on_vote vrfy cap r l0 v) as [o l1] eqn:E1. destruct (run_votes vrfy cap l1 vs) as [os2 l2] eqn:E2.
      intros H; injection H as <- <-. eapply IH; [|exact E2]. unfold on_vote in E1.
      destruct r as [r|]; [|injection E1 as <- <-; auto].
      repeat (match type of E1 with context[if ?b then _ else _] => destruct b end); injection E1 as <- <-; auto.
      apply record_vote_len; auto. }
  intros Hr. eapply H; [|exact Hr]. simpl. lia.
Qed.

(* ---------- concrete runs ---------- *)
Definition pr (a b : N) : N := (2 ^ a * (2 * b + 1))%N.
Lemma pr_inj a b c d : pr a b = pr c d -> a = c /\ b = d.
Proof.
  assert (H : forall a b c d, (a <= c)%N -> pr a b = pr c d -> a = c /\ b = d).
  { clear. intros a b c d Hle H. unfold pr in H.
    replace c with (a + (c - a))%N in H by lia. rewrite N.pow_add_r in H. rewrite <- N.mul_assoc in H.
    apply N.mul_cancel_l in H; [|apply N.pow_nonzero; lia].
    destruct (N.eq_dec c a) as [->|Hne].
    - rewrite N.sub_diag in H. change (2 ^ 0)%N with 1%N in H. split; auto. lia.
    - exfalso. replace (c - a)%N with (N.succ (c - a - 1)) in H by lia. rewrite N.pow_succ_r' in H.
      rewrite <- N.mul_assoc in H. lia. }
  intros He. destruct (N.le_ge_cases a c) as [Hl|Hl]; [apply H; auto|]. symmetry in He. destruct (H _ _ _ _ Hl He); auto.
Qed.
(* four members; a signature is valid when it is the signer's number *)
Definition env4 : genv := mk_genv (fun e r n h => pr e (pr r (pr n h))) (fun _ k s => N.eqb k s) (fun _ => [1; 2; 3; 4]%N).
Lemma env4_ok : genv_ok env4.
Proof.
  constructor.
  - cbn [env4 ge_dig]. intros. apply pr_inj in H as [-> H]. apply pr_inj in H as [-> H]. apply pr_inj in H as [-> ->]. auto.
  - intros e. cbn [env4 ge_com]. repeat constructor; simpl; intuition discriminate.
Qed.
(* a message that arrives and whose handler runs through *)
Definition whole (n h k : N) : list gev :=
  [GArrive (mk_gmsg 0 0 n h k k); GRun 0 true false; GRun 0 true false; GRun 0 true false].
(* members 1 and 2 sign result 77 of number 5: published *)
Definition good_run : list gev := whole 5 77 1 ++ whole 5 99 4 ++ whole 5 77 2 ++ [GRun 0 true false; GRun 0 true false].
Example C27_good_run : In (GPublish (mk_gmsg 0 0 5 77 2 2)) (fst (grun env4 (g_init (0, 0, 0)%N) good_run)) /\
  g_pub (snd (grun env4 (g_init (0, 0, 0)%N) good_run)) = (0, 5, 77)%N.
Proof. split; vm_compute; auto 10. Qed.
Example C27_good_run_discipline : honest_discipline env4 [4]%N [5]%N (fun _ => ge_dig env4 0 0 5 77) good_run.
Proof.
  assert (H : Forall (fun e => match e with
             | GArrive m => In (gm_number m) [5]%N /\ (In (gm_key m) [4]%N \/ gm_dig env4 m = ge_dig env4 0 0 5 77) | _ => True end) good_run).
  { unfold good_run, whole. cbn [app].
    repeat (apply Forall_cons; [first [exact I | split; [simpl; auto| first [right; reflexivity | left; simpl; auto]]]|]). apply Forall_nil. }
  intros m Hm _. rewrite Forall_forall in H. exact (H _ Hm).
Qed.

(* ---------- the documented residual ---------- *)
(* One member signs one result for each of many future numbers (twenty fresh ones after each honest signature): the honest
   result of number 5, signed and counted for all three honest members, is evicted each time and never published. *)
Definition flood (base : N) : list gev := flat_map (fun i => whole (base + N.of_nat i) 1 4) (seq 0 20).
Definition bad_run : list gev := whole 5 77 1 ++ flood 10 ++ whole 5 77 2 ++ flood 40 ++ whole 5 77 3.
Theorem C27_many_numbers_refuted :
  let '(fx, s) := grun env4 (g_init (0, 0, 0)%N) bad_run in
  (forall k, In k [1; 2; 3]%N -> In (GCounted (mk_gmsg 0 0 5 77 k k)) fx) /\
  (forall m, ~ In (GPublish m) fx) /\ ~ In GCleared fx /\ g_tasks s = [] /\
  (forall n, length (filter (fun e => N.eqb (t_number (snd e)) n && memN 4 (t_signers (snd e))) (g_tal s)) <= 1) /\
  exists d, In (GEvict d) fx.
Proof.
  destruct (grun env4 (g_init (0, 0, 0)%N) bad_run) as [fx s] eqn:Er.
  assert (Hfx : fx = fst (grun env4 (g_init (0, 0, 0)%N) bad_run)) by (rewrite Er; auto).
  assert (Hs : s = snd (grun env4 (g_init (0, 0, 0)%N) bad_run)) by (rewrite Er; auto).
  clear Er.
  assert (Hb : forallb (fun x => match x with GPublish _ | GCleared => false | _ => true end) fx = true) by (subst fx; vm_compute; reflexivity).
  rewrite forallb_forall in Hb.
  split.
  { intros k Hk. assert (Hx : existsb (fun x => match x with GCounted m => N.eqb (gm_key m) k && N.eqb (gm_sig m) k && N.eqb (gm_number m) 5 && N.eqb (gm_hash m) 77 && N.eqb (gm_epoch m) 0 && N.eqb (gm_round m) 0 | _ => false end) fx = true).
    { subst fx. repeat (destruct Hk as [<-|Hk]; [vm_compute; reflexivity|]). destruct Hk. }
    apply existsb_exists in Hx as (x & H1 & H2). destruct x as [| | | | |m]; try discriminate H2.
    destruct m as [e r n h k' s']. cbn in H2. rewrite !andb_true_iff, !N.eqb_eq in H2.
    destruct H2 as [[[[[-> ->] ->] ->] ->] ->]. exact H1. }
  split; [intros m Hm; specialize (Hb _ Hm); discriminate Hb|].
  split; [intros Hm; specialize (Hb _ Hm); discriminate Hb|].
  split; [subst s; vm_compute; reflexivity|].
  split.
  - intros n. assert (Hn : NoDup (map (fun e => t_number (snd e)) (g_tal s))).
    { assert (Hl : forallb (fun i => match nth_error (map (fun e => t_number (snd e)) (g_tal s)) i with
                     | Some x => negb (memN x (skipn (S i) (map (fun e => t_number (snd e)) (g_tal s)))) | None => true end) (seq 0 21) = true)
        by (subst s; vm_compute; reflexivity).
      assert (Hlen : length (g_tal s) = 20) by (subst s; vm_compute; reflexivity).
      rewrite forallb_forall in Hl. clear -Hl Hlen.
      set (L := map (fun e => t_number (snd e)) (g_tal s)) in *.
      assert (HL : length L = 20) by (unfold L; rewrite map_length; auto). clearbody L.
      assert (G : forall i, i <= 20 -> NoDup (skipn (20 - i) L)).
      { induction i as [|i IH]; intros Hi.
        - rewrite Nat.sub_0_r, skipn_all2; [constructor|lia].
        - destruct (nth_error L (20 - S i)) as [x|] eqn:Ex; [|apply nth_error_None in Ex; lia].
          specialize (Hl (20 - S i)). rewrite Ex in Hl.
          assert (Hsk : skipn (20 - S i) L = x :: skipn (20 - i) L).
          { replace (20 - i) with (S (20 - S i)) by lia. clear -Ex. revert Ex. generalize (20 - S i). 
            induction L as [|y L IHL]; intros [|j]; simpl; try discriminate; [congruence|]. intros Hj. apply IHL. auto. }
          rewrite Hsk. constructor; [|apply IH; lia].
          replace (S (20 - S i)) with (20 - i) in Hl by lia. apply memN_nIn.
          assert (Hm : negb (memN x (skipn (20 - i) L)) = true) by (apply Hl; apply in_seq; lia).
          apply negb_true_iff in Hm. auto. }
      apply (G 20). lia. }
    clear -Hn. induction (g_tal s) as [|[d t] l IH]; simpl; [lia|]. inversion Hn as [|? ? H1 H2]; subst. cbn [snd] in *.
    destruct (N.eqb (t_number t) n && memN 4 (t_signers t)) eqn:Ex; [|apply IH; auto].
    apply andb_true_iff in Ex as [Ex _]. apply N.eqb_eq in Ex. subst n. simpl.
    assert (filter (fun e : N * tally => N.eqb (t_number (snd e)) (t_number t) && memN 4 (t_signers (snd e))) l = []) as ->; [|simpl; lia].
    clear -H1. induction l as [|[d' t'] l IH]; simpl; auto. simpl in H1.
    destruct (N.eqb (t_number t') (t_number t)) eqn:Ex; [apply N.eqb_eq in Ex; tauto|]. apply IH. tauto.
  - assert (Hx : existsb (fun x => match x with GEvict _ => true | _ => false end) fx = true) by (subst fx; vm_compute; reflexivity).
    apply existsb_exists in Hx as (x & H1 & H2). destruct x as [|d| | | |]; try discriminate H2. exists d. exact H1.
Qed.

(* votes: a concrete forward *)
Example C27_vote_forwarded :
  on_vote (fun _ k s => N.eqb k s) 1024 (Some (mk_vrec 9 [1; 2; 3; 4]%N)) [] (mk_evote 3 9 2 2) =
    (VForward (mk_evote 3 9 2 2), [((2, 3)%N, 1)]).
Proof. reflexivity. Qed.
