(** Proofs for C41. *)
From Verif Require Import Util OutModel OutSpec OutProofs SubModel SubSpec.
Local Open Scope nat_scope.

Lemma lastof_snoc {A} (l : list A) x : lastof (l ++ [x]) = Some x.
Proof. unfold lastof. rewrite rev_app_distr; auto. Qed.
Lemma lastof_nil {A} : @lastof A [] = None.
Proof. reflexivity. Qed.
Lemma lastof_some {A} (l : list A) x : lastof l = Some x -> exists l', l = l' ++ [x].
Proof.
  destruct l as [|y t]; [intros C; discriminate C|].
  destruct (@exists_last A (y :: t)) as [l' [z E]]; [discriminate|]. rewrite E, lastof_snoc.
  intros H; injection H as ->. eauto.
Qed.
Lemma lastof_app {A} (l m : list A) : lastof (l ++ m) = match m with [] => lastof l | _ => lastof m end.
Proof.
  destruct m as [|y t]; [now rewrite app_nil_r|].
  destruct (@exists_last A (y :: t)) as [m' [z E]]; [discriminate|]. rewrite E, app_assoc, !lastof_snoc.
  auto.
Qed.
Lemma lastof_nonnil {A} (l : list A) : l <> [] -> exists x, lastof l = Some x.
Proof. intros H. destruct (exists_last H) as [l' [x E]]. exists x. rewrite E. apply lastof_snoc. Qed.
Lemma lastof_nth {A} (l : list A) x : lastof l = Some x -> nth_error l (length l - 1) = Some x.
Proof.
  intros H. destruct (lastof_some _ _ H) as [l' ->]. rewrite app_length; simpl.
  rewrite nth_error_app2 by lia. replace (length l' + 1 - 1 - length l') with 0 by lia. auto.
Qed.

Section P.
Variable bd : N -> N.
Variable addr : N -> N -> option N.
Variable hd : N -> subdag -> N -> N.
Variable gd : N.
Variable bound : N -> N.
Variable G : nat -> subdag.
Variable resume : N -> option subdag -> nat.
Hypothesis HE : epochs_advance bound G.
Hypothesis HR : resumes_after G resume.
Hypothesis HD : digest_fixes_number hd.

Notation cdig := (chain_digest hd gd G).
Notation chain := (is_chain bd addr hd gd G).
Notation ep i := (sd_epoch (G i)).
Notation step := (step bd addr hd gd bound G resume).
Notation closes := (closes bound).
Notation odig := (odig hd).

Lemma ep_mono i j : i <= j -> (ep i <= ep j)%N.
Proof.
  intros H. induction H as [|j H IH]; [lia|]. destruct HE as [_ S]. rewrite S.
  destruct (_ <=? _)%N; lia.
Qed.

Lemma chain_fields L i o : chain L -> nth_error L i = Some o ->
  out_sub o = G i /\ out_num o = N.of_nat (S i) /\ odig o = cdig (S i).
Proof.
  intros C H. destruct (C i o H) as [A [B [E _]]]. split; auto. split; auto.
  unfold SubModel.odig, digest_of, header_of; cbn [ch_parent ch_sub ch_num]. rewrite A, B, E. reflexivity.
Qed.
Lemma chain_app L M : chain (L ++ M) -> chain L.
Proof. intros C i o H. apply C. rewrite nth_error_app1; auto. apply nth_error_Some; congruence. Qed.
Lemma chain_snoc L o : chain L -> chain_output bd addr hd gd G (length L) o -> chain (L ++ [o]).
Proof.
  intros C H i x Hx. destruct (Nat.lt_ge_cases i (length L)) as [Hi|Hi].
  - rewrite nth_error_app1 in Hx by lia. apply C; auto.
  - rewrite nth_error_app2 in Hx by lia. destruct (i - length L) as [|d] eqn:E; [|destruct d; discriminate Hx].
    injection Hx as <-. replace i with (length L) by lia. auto.
Qed.

(** The packs on disk. *)
Fixpoint packs_ok (ps : list pack) : Prop :=
  match ps with
  | [] => True
  | p :: r =>
      packs_ok r /\ Forall (fun o => sd_epoch (out_sub o) = pk_epoch p) (pk_outs p) /\
      pk_start p = (N.of_nat (length (saved r)) + 1)%N /\
      match r with
      | [] => pk_epoch p = 0%N
      | q :: _ => pk_epoch p = (pk_epoch q + 1)%N /\
                  exists o, lastof (pk_outs q) = Some o /\ closes (pk_epoch q) o = true
      end
  end.

Lemma F1 p r j : packs_ok (p :: r) -> chain (saved (p :: r)) ->
  length (saved r) <= j < length (saved (p :: r)) -> ep j = pk_epoch p.
Proof.
  intros [_ [F _]] C Hj. simpl in Hj. rewrite app_length in Hj.
  destruct (nth_error (pk_outs p) (j - length (saved r))) as [o|] eqn:E.
  - assert (H : nth_error (saved (p :: r)) j = Some o) by (simpl; rewrite nth_error_app2 by lia; auto).
    destruct (chain_fields _ _ _ C H) as [A _]. rewrite <- A.
    rewrite Forall_forall in F. apply F. eapply nth_error_In; eauto.
  - apply nth_error_None in E. lia.
Qed.
Lemma ep_succ_closes L i o : chain L -> nth_error L i = Some o ->
  ep (S i) = if closes (ep i) o then (ep i + 1)%N else ep i.
Proof.
  intros C H. destruct (chain_fields _ _ _ C H) as [A _]. destruct HE as [_ S]. rewrite S.
  unfold SubModel.closes. rewrite A. auto.
Qed.
Lemma F2 p r : packs_ok (p :: r) -> chain (saved (p :: r)) -> ep (length (saved r)) = pk_epoch p.
Proof.
  intros P C. destruct r as [|q r].
  - destruct P as [_ [_ [_ E]]]. simpl. rewrite E. apply HE.
  - destruct P as [P [_ [_ [E [o [Lo Co]]]]]].
    assert (C' : chain (saved (q :: r))) by (simpl in C; apply chain_app in C; exact C).
    destruct (lastof_some _ _ Lo) as [l' El].
    assert (Hn : nth_error (saved (q :: r)) (length (saved r) + length l') = Some o).
    { simpl. rewrite El, nth_error_app2 by lia. rewrite nth_error_app2 by lia.
      replace (length (saved r) + length l' - length (saved r) - length l') with 0 by lia. auto. }
    assert (Hl : length (saved (q :: r)) = S (length (saved r) + length l')).
    { simpl. rewrite El, !app_length; simpl; lia. }
    rewrite Hl. rewrite (ep_succ_closes _ _ _ C' Hn).
    rewrite (F1 q r (length (saved r) + length l') P C') by lia.
    rewrite Co. congruence.
Qed.
Lemma F4 p r j : packs_ok (p :: r) -> chain (saved (p :: r)) -> j < length (saved r) -> (ep j < pk_epoch p)%N.
Proof.
  intros P C Hj. destruct r as [|q r]; [simpl in Hj; lia|].
  pose proof P as P0. destruct P as [P [_ [_ [E _]]]].
  assert (C' : chain (saved (q :: r))) by (simpl in C; apply chain_app in C; exact C).
  assert (ep j <= pk_epoch q)%N; [|lia].
  destruct (Nat.lt_ge_cases j (length (saved r))) as [Hb|Hb].
  - rewrite <- (F2 q r P C'). apply ep_mono; lia.
  - rewrite (F1 q r j P C'); lia.
Qed.

Lemma pack_of_hd p r : pack_of (pk_epoch p) (p :: r) = Some p.
Proof. unfold pack_of; simpl. rewrite N.eqb_refl; auto. Qed.
Lemma pack_of_snd p q r : packs_ok (p :: q :: r) -> pack_of (pk_epoch q) (p :: q :: r) = Some q.
Proof.
  intros [_ [_ [_ [E _]]]]. unfold pack_of; simpl.
  destruct (pk_epoch p =? pk_epoch q)%N eqn:X; [apply N.eqb_eq in X; lia|]. rewrite N.eqb_refl; auto.
Qed.

Lemma find_ex L b os i o : chain L -> (forall j x, nth_error os j = Some x -> nth_error L (b + j) = Some x) ->
  nth_error L i = Some o -> In o os ->
  match find (fun x => (odig x =? odig o)%N) os with
  | None => (gd, 0%N) | Some x => (odig x, out_num x) end = (cdig (S i), N.of_nat (S i)).
Proof.
  intros C Hos Hi Ho. destruct (find _ os) as [x|] eqn:F.
  - apply find_some in F. destruct F as [Fi Fe]. apply N.eqb_eq in Fe.
    destruct (In_nth_error _ _ Fi) as [j Hj]. apply Hos in Hj.
    destruct (chain_fields _ _ _ C Hj) as [_ [B1 B2]]. destruct (chain_fields _ _ _ C Hi) as [_ [A1 A2]].
    rewrite Fe, A2. f_equal.
    rewrite B2, A2 in Fe. simpl in Fe. apply HD in Fe. rewrite B1. lia.
  - eapply find_none in F; eauto. rewrite N.eqb_refl in F. discriminate F.
Qed.

Lemma exec_parent_ok n p r rest : n_packs n = p :: r -> packs_ok (p :: r) -> chain (saved (p :: r)) ->
  saved (p :: r) = n_exec n ++ rest -> length (saved r) <= length (n_exec n) ->
  exec_parent hd gd n = (cdig (length (n_exec n)), N.of_nat (length (n_exec n))).
Proof.
  intros Ep P C EL Hb. unfold exec_parent. rewrite Ep.
  destruct (lastof (n_exec n)) as [o|] eqn:El.
  2:{ destruct (n_exec n) as [|x t]; [reflexivity|].
      destruct (@lastof_nonnil _ (x :: t)) as [y Hy]; [discriminate|]. congruence. }
  destruct (lastof_some _ _ El) as [l' Ex].
  assert (Hi : nth_error (saved (p :: r)) (length l') = Some o).
  { rewrite EL, Ex, <- app_assoc, nth_error_app2 by lia. rewrite Nat.sub_diag; auto. }
  assert (Hk : length (n_exec n) = S (length l')) by (rewrite Ex, app_length; simpl; lia).
  rewrite Hk. destruct (chain_fields _ _ _ C Hi) as [As _]. rewrite As.
  assert (Hlt : length l' < length (saved (p :: r))) by (apply nth_error_Some; congruence).
  destruct (Nat.lt_ge_cases (length l') (length (saved r))) as [Hlo|Hhi].
  - (* in the pack before *)
    destruct r as [|q r]; [simpl in Hlo; lia|]. pose proof P as P0.
    destruct P as [P [_ [_ [_ [oc [Lo _]]]]]].
    assert (C' : chain (saved (q :: r))) by (simpl in C; apply chain_app in C; exact C).
    destruct (lastof_some _ _ Lo) as [lq Eq].
    assert (Hs : length (saved (q :: r)) = length (saved r) + S (length lq)) by (simpl; rewrite Eq, !app_length; simpl; lia).
    rewrite (F1 q r (length l') P C') by lia. rewrite (pack_of_snd p q r P0).
    apply find_ex with (L := saved (q :: r)) (b := length (saved r)); auto.
    + intros j x Hj. simpl. rewrite nth_error_app2 by lia. replace (length (saved r) + j - length (saved r)) with j by lia; auto.
    + simpl saved in Hi. rewrite nth_error_app1 in Hi; [exact Hi|exact Hlo].
    + simpl saved in Hi. rewrite nth_error_app1 in Hi by exact Hlo.
      rewrite nth_error_app2 in Hi by lia. eapply nth_error_In; eauto.
  - rewrite (F1 p r (length l') P C) by lia. rewrite pack_of_hd.
    apply find_ex with (L := saved (p :: r)) (b := length (saved r)); auto.
    + intros j x Hj. simpl. rewrite nth_error_app2 by lia. replace (length (saved r) + j - length (saved r)) with j by lia; auto.
    + simpl saved in Hi. rewrite nth_error_app2 in Hi by lia. eapply nth_error_In; eauto.
Qed.

Lemma last_parent_ok n p r rest : n_packs n = p :: r -> packs_ok (p :: r) -> chain (saved (p :: r)) ->
  saved (p :: r) = n_exec n ++ rest -> length (saved r) <= length (n_exec n) ->
  slot_ok (n_slot n) (saved (p :: r)) ->
  last_parent hd gd n = Some (cdig (length (saved (p :: r))), N.of_nat (length (saved (p :: r)))).
Proof.
  intros Ep P C EL Hb [_ Se]. unfold last_parent.
  rewrite (exec_parent_ok n p r rest Ep P C EL Hb). rewrite Ep. cbn [snd].
  assert (Hle : length (n_exec n) <= length (saved (p :: r))) by (rewrite EL, app_length; lia).
  assert (Key : forall q o, pack_of (fst (n_slot n)) (p :: r) = Some q -> lastof (pk_outs q) = Some o ->
                lastof (saved (p :: r)) = Some o ->
     (match pack_of (fst (n_slot n)) (p :: r) with
      | None => None
      | Some p0 => match lastof (pk_outs p0) with
          | None => Some (cdig (length (n_exec n)), N.of_nat (length (n_exec n)))
          | Some o0 => if (N.of_nat (length (n_exec n)) <? out_num o0)%N then Some (odig o0, out_num o0)
                       else Some (cdig (length (n_exec n)), N.of_nat (length (n_exec n))) end end
      = Some (cdig (length (saved (p :: r))), N.of_nat (length (saved (p :: r)))))).
  { intros q o Hq Ho HL. rewrite Hq, Ho. pose proof (lastof_nth _ _ HL) as Hn.
    destruct (chain_fields _ _ _ C Hn) as [_ [B1 B2]].
    assert (Hpos : 0 < length (saved (p :: r))).
    { destruct (saved (p :: r)); [discriminate HL|simpl; lia]. }
    replace (S (length (saved (p :: r)) - 1)) with (length (saved (p :: r))) in * by lia.
    rewrite B1, B2. destruct (N.of_nat (length (n_exec n)) <? N.of_nat (length (saved (p :: r))))%N eqn:X; auto.
    apply N.ltb_ge in X. replace (length (n_exec n)) with (length (saved (p :: r))) by lia. auto. }
  destruct (pk_outs p) as [|x0 t0] eqn:Eo.
  - destruct r as [|q r].
    + assert (En : saved (p :: []) = []) by (simpl; rewrite Eo; auto).
      rewrite En in *. simpl in Se. pose proof P as [_ [_ [_ E0]]].
      rewrite Se, <- E0, pack_of_hd, Eo. cbn [lastof rev nth_error length].
      symmetry in EL. apply app_eq_nil in EL. destruct EL as [-> _]. reflexivity.
    + pose proof P as [P' [_ [_ [_ [oc [Lo _]]]]]].
      assert (HL : lastof (saved (p :: q :: r)) = Some oc).
      { cbn [saved]. rewrite Eo, app_nil_r, lastof_app, Lo. destruct (pk_outs q); [discriminate Lo|auto]. }
      rewrite HL in Se.
      assert (Es : sd_epoch (out_sub oc) = pk_epoch q).
      { destruct P' as [_ [F _]]. rewrite Forall_forall in F. apply F.
        destruct (lastof_some _ _ Lo) as [l' ->]. apply in_or_app; right; simpl; auto. }
      apply (Key q oc); auto. rewrite Se, Es. apply pack_of_snd; auto.
  - destruct (@lastof_nonnil _ (pk_outs p)) as [oc Lo]; [rewrite Eo; discriminate|].
    assert (HL : lastof (saved (p :: r)) = Some oc).
    { cbn [saved]. rewrite lastof_app, Lo. destruct (pk_outs p); [discriminate Lo|auto]. }
    rewrite HL in Se.
    assert (Es : sd_epoch (out_sub oc) = pk_epoch p).
    { destruct P as [_ [F _]]. rewrite Forall_forall in F. apply F.
      destruct (lastof_some _ _ Lo) as [l' ->]. apply in_or_app; right; simpl; auto. }
    apply (Key p oc); auto. rewrite Se, Es. apply pack_of_hd.
Qed.

Lemma resume_ok p r : packs_ok (p :: r) -> chain (saved (p :: r)) -> ep (length (saved (p :: r))) = pk_epoch p ->
  resume (pk_epoch p) (option_map out_sub (lastof (pk_outs p))) = length (saved (p :: r)).
Proof.
  intros P C Ee. destruct (lastof (pk_outs p)) as [o|] eqn:Lo; cbn [option_map].
  - assert (HL : lastof (saved (p :: r)) = Some o).
    { cbn [saved]. rewrite lastof_app, Lo. destruct (pk_outs p); [discriminate Lo|auto]. }
    pose proof (lastof_nth _ _ HL) as Hn. destruct (chain_fields _ _ _ C Hn) as [A _].
    destruct (lastof_some _ _ Lo) as [l' El].
    assert (Hl : length (saved (p :: r)) = length (saved r) + S (length l')) by (cbn [saved]; rewrite El, !app_length; simpl; lia).
    rewrite A. rewrite <- (F1 p r (length (saved (p :: r)) - 1) P C) by lia.
    destruct HR as [R _]. rewrite R. lia.
  - destruct (pk_outs p) eqn:Eo; [|destruct (@lastof_nonnil _ (o :: l)) as [y Hy]; [discriminate|congruence]].
    assert (EL : saved (p :: r) = saved r) by (cbn [saved]; rewrite Eo, app_nil_r; auto).
    destruct HR as [_ R]. rewrite <- Ee. apply R. intros j Hj. rewrite EL in Hj. rewrite Ee.
    pose proof (F4 p r j P C Hj). lia.
Qed.

Lemma skipn_cons_nth {A} (l : list A) k x : nth_error l k = Some x -> skipn k l = x :: skipn (S k) l.
Proof.
  revert k; induction l as [|y l IH]; intros [|k] H; simpl in *; try discriminate H.
  - injection H as ->; auto.
  - rewrite (IH _ H). reflexivity.
Qed.

Lemma replay_ok p r : packs_ok (p :: r) -> chain (saved (p :: r)) ->
  forall c k, length (saved r) <= k -> k + c = length (saved (p :: r)) ->
  replay bound (p :: r) p (pk_epoch p) (N.of_nat k + 1)%N c =
    Some (skipn k (saved (p :: r)), (0 <? c) && negb (ep (length (saved (p :: r))) =? pk_epoch p)%N).
Proof.
  intros P C. induction c as [|c IH]; intros k Hk Hc.
  - cbn [replay]. rewrite skipn_all2 by lia. auto.
  - cbn [replay].
    assert (Hkl : k < length (saved (p :: r))) by lia.
    destruct (nth_error (saved (p :: r)) k) as [o|] eqn:Ho; [|apply nth_error_None in Ho; lia].
    assert (Ho' : nth_error (pk_outs p) (k - length (saved r)) = Some o).
    { cbn [saved] in Ho. rewrite nth_error_app2 in Ho by lia. auto. }
    assert (Hst : pk_start p = (N.of_nat (length (saved r)) + 1)%N) by (destruct P as [_ [_ [E _]]]; auto).
    assert (Hlen : length (saved (p :: r)) = length (saved r) + length (pk_outs p)) by (cbn [saved]; apply app_length).
    unfold out_at. cbn [find].
    assert (X1 : ((pk_start p <=? N.of_nat k + 1) && (N.of_nat k + 1 <? pk_start p + N.of_nat (length (pk_outs p))))%N = true).
    { rewrite Hst. apply andb_true_iff. split; [apply N.leb_le; lia|apply N.ltb_lt; lia]. }
    rewrite X1. replace (N.to_nat (N.of_nat k + 1 - pk_start p)) with (k - length (saved r)) by lia.
    rewrite Ho'. destruct (chain_fields _ _ _ C Ho) as [A _].
    rewrite A, (F1 p r k P C) by lia. rewrite N.eqb_refl. cbn [negb].
    unfold outputs_from. destruct (N.of_nat k + 1 <? pk_start p)%N eqn:X2; [apply N.ltb_lt in X2; lia|].
    replace (N.to_nat (N.of_nat k + 1 + 1 - (N.of_nat k + 1))) with 1 by lia.
    replace (N.to_nat (N.of_nat k + 1 - pk_start p)) with (k - length (saved r)) by lia.
    rewrite (skipn_cons_nth _ _ _ Ho'). cbn [firstn].
    pose proof (ep_succ_closes _ _ _ C Ho) as Es. rewrite (F1 p r k P C) in Es by lia.
    rewrite (skipn_cons_nth _ _ _ Ho). cbn [Nat.ltb Nat.leb].
    destruct (closes (pk_epoch p) o) eqn:Ec.
    + assert (S k = length (saved (p :: r))) as El.
      { destruct (Nat.lt_ge_cases (S k) (length (saved (p :: r)))) as [Hlt|]; [|lia].
        pose proof (F1 p r (S k) P C) as F. rewrite F in Es by lia. lia. }
      rewrite skipn_all2 by lia. rewrite <- El, Es.
      destruct (pk_epoch p + 1 =? pk_epoch p)%N eqn:X3; [apply N.eqb_eq in X3; lia|]. reflexivity.
    + replace (N.of_nat k + 1 + 1)%N with (N.of_nat (S k) + 1)%N by lia.
      rewrite IH by lia. f_equal. f_equal.
      destruct c as [|c]; [|reflexivity]. simpl (0 <? 0). simpl (0 <? 1). cbn [andb].
      replace (length (saved (p :: r))) with (S k) by lia. rewrite Es, N.eqb_refl. reflexivity.
Qed.

(* ---------- the invariant ---------- *)
Definition pend (ph : phase) : list output :=
  match ph with Idle => [] | Appended o | Queued o | PackOk o | Saved o => [o] end.

Definition phase_inv (n : node) (v : vol) (p : pack) : Prop :=
  let pre := n_exec n ++ v_eng v ++ v_chan v in
  match v_phase v with
  | Idle => pk_kept p = length (pk_outs p) /\ slot_ok (n_slot n) pre /\ n_slots n = [n_slot n]
  | Appended o => pk_kept p + 1 = length (pk_outs p) /\ slot_ok (n_slot n) pre /\ n_slots n = [n_slot n]
  | Queued o => pk_kept p + 1 = length (pk_outs p) /\ n_slot n = (sd_epoch (out_sub o), out_num o) /\
                exists old, n_slots n = [old; n_slot n] /\ slot_ok old pre
  | PackOk o => pk_kept p = length (pk_outs p) /\ n_slot n = (sd_epoch (out_sub o), out_num o) /\
                exists old, n_slots n = [old; n_slot n] /\ slot_ok old pre
  | Saved o => pk_kept p = length (pk_outs p) /\ n_slot n = (sd_epoch (out_sub o), out_num o) /\ n_slots n = [n_slot n]
  end.

Definition active_inv (n : node) (v : vol) : Prop :=
  let L := saved (n_packs n) in
  if v_active v then
    v_next v = length L + length (v_wait v) /\ v_num v = N.of_nat (v_next v) /\ v_parent v = cdig (v_next v) /\
    (forall j x, nth_error (v_wait v) j = Some x -> x = (G (length L + j), cdig (length L + j), N.of_nat (S (length L + j))) /\ ep (length L + j) = v_epoch v) /\
    (v_done v = false -> ep (v_next v) = v_epoch v)
  else v_wait v = [].

Definition up_inv (n : node) (v : vol) : Prop :=
  exists p r, n_packs n = p :: r /\ v_epoch v = pk_epoch p /\ length (saved r) <= length (n_exec n) /\
    saved (p :: r) = n_exec n ++ v_eng v ++ v_chan v ++ pend (v_phase v) /\
    v_fwd v = N.of_nat (length (n_exec n) + length (v_eng v)) /\
    phase_inv n v p /\
    (if v_closed v then v_chan v = [] /\ v_phase v = Idle /\ ep (length (saved (p :: r))) = (v_epoch v + 1)%N
     else ep (length (n_exec n) + length (v_eng v)) = v_epoch v) /\
    active_inv n v.

Definition down_inv (n : node) : Prop :=
  n_slots n = [n_slot n] /\ (
  (n_packs n = [] /\ n_slot n = (0%N, 0%N) /\ n_exec n = []) \/
  exists p r rest, n_packs n = p :: r /\ saved (p :: r) = n_exec n ++ rest /\
    length (saved r) <= length (n_exec n) /\ pk_kept p = length (pk_outs p) /\ slot_ok (n_slot n) (saved (p :: r))).

Definition inv (n : node) : Prop :=
  packs_ok (n_packs n) /\ chain (saved (n_packs n)) /\
  match n_up n with None => down_inv n | Some v => up_inv n v end.

Lemma inv_fresh : inv fresh.
Proof.
  split; [exact I|]. split; [|split; [reflexivity|left; auto]]. intros i o H. destruct i; discriminate H.
Qed.

(** The subscriber of an epoch starts at the right place. *)
Lemma start_sub_inv n p r eng act : n_packs n = p :: r -> packs_ok (p :: r) -> chain (saved (p :: r)) ->
  saved (p :: r) = n_exec n ++ eng -> length (saved r) <= length (n_exec n) ->
  pk_kept p = length (pk_outs p) -> slot_ok (n_slot n) (saved (p :: r)) -> n_slots n = [n_slot n] ->
  ep (length (saved (p :: r))) = pk_epoch p ->
  let n' := start_sub hd gd resume n (pk_epoch p) act (N.of_nat (length (saved (p :: r)))) eng in
  inv n' /\ n_up n' <> None.
Proof.
  intros Ep P C EL Hb Hk Hs Hss He. unfold start_sub.
  rewrite (last_parent_ok n p r eng) by auto. rewrite Ep, pack_of_hd.
  rewrite (resume_ok p r P C He). cbn [SubModel.set_up]. split; [|discriminate].
  split; [cbn [set_up n_packs]; rewrite Ep; auto|]. split; [cbn [set_up n_packs]; rewrite Ep; auto|].
  cbn [set_up n_up]. exists p, r. cbn [set_up n_packs n_exec n_slot n_slots v_epoch v_eng v_chan v_phase v_fwd v_closed pend].
  rewrite !app_nil_r. split; auto. split; auto. split; auto. split; auto.
  assert (HL : length (n_exec n) + length eng = length (saved (p :: r))) by (rewrite EL, app_length; lia).
  split; [f_equal; lia|]. split; [|split].
  - unfold phase_inv. cbn [v_phase set_up n_exec v_eng v_chan n_slot n_slots]. rewrite app_nil_r, <- EL. auto.
  - rewrite HL. auto.
  - unfold active_inv. cbn [set_up n_packs v_active v_wait v_next v_num v_parent v_done v_epoch].
    destruct act; auto. rewrite Ep. simpl length. rewrite Nat.add_0_r. split; auto. split; auto. split; auto.
    split; auto. intros j x Hj. destruct j; discriminate Hj.
Qed.

Lemma closing_inv n p r eng : n_packs n = p :: r -> packs_ok (p :: r) -> chain (saved (p :: r)) ->
  saved (p :: r) = n_exec n ++ eng -> length (saved r) <= length (n_exec n) ->
  pk_kept p = length (pk_outs p) -> slot_ok (n_slot n) (saved (p :: r)) -> n_slots n = [n_slot n] ->
  ep (length (saved (p :: r))) = (pk_epoch p + 1)%N ->
  let n' := closing_state n (pk_epoch p) (N.of_nat (length (saved (p :: r)))) eng in
  inv n' /\ n_up n' <> None.
Proof.
  intros Ep P C EL Hb Hk Hs Hss He. unfold closing_state. split; [|discriminate].
  split; [cbn [set_up n_packs]; rewrite Ep; auto|]. split; [cbn [set_up n_packs]; rewrite Ep; auto|].
  cbn [set_up n_up]. exists p, r. cbn [set_up n_packs n_exec n_slot n_slots v_epoch v_eng v_chan v_phase v_fwd v_closed pend].
  rewrite !app_nil_r. split; auto. split; auto. split; auto. split; auto.
  assert (HL : length (n_exec n) + length eng = length (saved (p :: r))) by (rewrite EL, app_length; lia).
  split; [f_equal; lia|]. split; [|split]; auto.
  - unfold phase_inv. cbn [v_phase set_up n_exec v_eng v_chan n_slot n_slots]. rewrite app_nil_r, <- EL. auto.
  - unfold active_inv. reflexivity.
Qed.

(** The executed state's epoch. *)
Lemma exec_epoch_ok n p r rest : packs_ok (p :: r) -> chain (saved (p :: r)) ->
  saved (p :: r) = n_exec n ++ rest -> exec_epoch bound n = ep (length (n_exec n)).
Proof.
  intros P C EL. unfold exec_epoch. destruct (lastof (n_exec n)) as [o|] eqn:Lo.
  - destruct (lastof_some _ _ Lo) as [l' Ex].
    assert (Hi : nth_error (saved (p :: r)) (length l') = Some o).
    { rewrite EL, Ex, <- app_assoc, nth_error_app2 by lia. rewrite Nat.sub_diag; auto. }
    rewrite Ex, app_length. simpl. rewrite Nat.add_1_r. rewrite (ep_succ_closes _ _ _ C Hi).
    destruct (chain_fields _ _ _ C Hi) as [A _]. rewrite A. auto.
  - destruct (n_exec n) as [|x t]; [symmetry; apply HE|].
    destruct (@lastof_nonnil _ (x :: t)) as [y Hy]; [discriminate|congruence].
Qed.

(** Epoch right after the saved outputs: same, or next when the last one closes. *)
Lemma ep_end p r : packs_ok (p :: r) -> chain (saved (p :: r)) ->
  ep (length (saved (p :: r))) = pk_epoch p \/
  (ep (length (saved (p :: r))) = (pk_epoch p + 1)%N /\ exists o, lastof (pk_outs p) = Some o /\ closes (pk_epoch p) o = true).
Proof.
  intros P C. destruct (lastof (pk_outs p)) as [o|] eqn:Lo.
  - destruct (lastof_some _ _ Lo) as [l' El].
    assert (HL : lastof (saved (p :: r)) = Some o).
    { cbn [saved]. rewrite lastof_app, Lo. destruct (pk_outs p); [discriminate Lo|auto]. }
    assert (Hl : length (saved (p :: r)) = S (length (saved r) + length l')) by (cbn [saved]; rewrite El, !app_length; simpl; lia).
    pose proof (lastof_nth _ _ HL) as Hn. rewrite Hl in Hn. replace (S (length (saved r) + length l') - 1) with (length (saved r) + length l') in Hn by lia.
    rewrite Hl, (ep_succ_closes _ _ _ C Hn). rewrite (F1 p r (length (saved r) + length l') P C) by lia.
    destruct (closes (pk_epoch p) o) eqn:Ec; [right|left]; eauto.
  - left. destruct (pk_outs p) eqn:Eo; [|destruct (@lastof_nonnil _ (o :: l)) as [y Hy]; [discriminate|congruence]].
    cbn [saved]. rewrite Eo, app_nil_r. apply F2; auto.
Qed.

Lemma all_kept_saved ps : saved (all_kept ps) = saved ps.
Proof. destruct ps; reflexivity. Qed.
Lemma all_kept_ok ps : packs_ok ps -> packs_ok (all_kept ps).
Proof. destruct ps as [|p r]; auto. Qed.
Lemma all_kept_full p r : pk_kept p = length (pk_outs p) -> all_kept (p :: r) = p :: r.
Proof. intros H. destruct p as [e s o k]; simpl in *. subst; auto. Qed.

(** Opening the pack of the epoch the executed state is in. *)
Lemma open_pack_ok n p r rest : n_packs n = p :: r -> packs_ok (p :: r) -> chain (saved (p :: r)) ->
  saved (p :: r) = n_exec n ++ rest -> length (saved r) <= length (n_exec n) -> pk_kept p = length (pk_outs p) ->
  exists p' r', n_packs (open_pack n (ep (length (n_exec n)))) = p' :: r' /\ packs_ok (p' :: r') /\
    saved (p' :: r') = saved (p :: r) /\ pk_epoch p' = ep (length (n_exec n)) /\
    length (saved r') <= length (n_exec n) /\ pk_kept p' = length (pk_outs p') /\
    n_slot (open_pack n (ep (length (n_exec n)))) = n_slot n /\ n_slots (open_pack n (ep (length (n_exec n)))) = n_slots n /\
    n_exec (open_pack n (ep (length (n_exec n)))) = n_exec n /\ n_up (open_pack n (ep (length (n_exec n)))) = n_up n.
Proof.
  intros Ep P C EL Hb Hk. unfold open_pack. rewrite Ep.
  assert (Hle : length (n_exec n) <= length (saved (p :: r))) by (rewrite EL, app_length; lia).
  assert (Hc : ep (length (n_exec n)) = pk_epoch p \/
     (ep (length (n_exec n)) = (pk_epoch p + 1)%N /\ length (n_exec n) = length (saved (p :: r)) /\ exists o, lastof (pk_outs p) = Some o /\ closes (pk_epoch p) o = true)).
  { destruct (Nat.eq_dec (length (n_exec n)) (length (saved (p :: r)))) as [E|E].
    - rewrite E. destruct (ep_end p r P C) as [H|[H1 H2]]; auto.
    - left. apply (F1 p r); auto. lia. }
  destruct Hc as [E|[E [El [o [Lo Co]]]]].
  - rewrite E, pack_of_hd. exists p, r. repeat (split; auto).
  - assert (Hno : pack_of (ep (length (n_exec n))) (p :: r) = None).
    { unfold pack_of. destruct (find _ (p :: r)) as [q|] eqn:F; auto. exfalso.
      apply find_some in F. destruct F as [Fi Fe]. apply N.eqb_eq in Fe.
      assert (B : forall ps q', packs_ok ps -> In q' ps -> match ps with [] => True | p0 :: _ => (pk_epoch q' <= pk_epoch p0)%N end).
      { clear. induction ps as [|a ps IH]; intros q' H Hi; auto. destruct Hi as [<-|Hi]; [lia|].
        destruct H as [H1 [_ [_ H4]]]. specialize (IH q' H1 Hi). destruct ps as [|b ps]; [destruct Hi|]. destruct H4 as [H4 _]. lia. }
      specialize (B (p :: r) q P Fi). simpl in B. lia. }
    rewrite Hno, (all_kept_full p r Hk).
    cbn [n_packs n_slot n_slots n_exec n_up].
    eexists; exists (p :: r). split; [reflexivity|]. cbn [pk_epoch pk_outs pk_kept].
    assert (Est : match lastof (n_exec n) with None => 1%N | Some o => (out_num o + 1)%N end = (N.of_nat (length (saved (p :: r))) + 1)%N).
    { assert (HL : lastof (saved (p :: r)) = Some o).
      { cbn [saved]. rewrite lastof_app, Lo. destruct (pk_outs p); [discriminate Lo|auto]. }
      assert (rest = []) by (assert (length rest = 0) by (rewrite EL, app_length in El; lia); destruct rest; [auto|discriminate]).
      subst rest. rewrite app_nil_r in EL. rewrite <- EL, HL.
      destruct (chain_fields _ _ _ C (lastof_nth _ _ HL)) as [_ [B _]]. rewrite B.
      assert (0 < length (saved (p :: r))) by (destruct (saved (p :: r)); [discriminate HL|simpl; lia]). lia. }
    split; [|split; [|split; [|split; [|split; [|auto]]]]]; auto.
    + cbn [packs_ok pk_epoch pk_start pk_outs]. split; [exact P|]. split; [constructor|]. split; [exact Est|].
      split; [exact E|]. eauto.
    + cbn [saved pk_outs]. now rewrite app_nil_r.
    + rewrite <- El. auto.
Qed.

Lemma open_pack_empty n : n_packs n = [] -> n_exec n = [] ->
  n_packs (open_pack n 0) = [{| pk_epoch := 0; pk_start := 1; pk_outs := []; pk_kept := 0 |}].
Proof. intros E Ex. unfold open_pack. rewrite E, Ex. reflexivity. Qed.

Lemma slot_ok_nil : slot_ok (0%N, 0%N) [].
Proof. split; simpl; auto. lia. Qed.

Lemma open_pack_same n p r e : n_packs n = p :: r -> (exists q, pack_of e (n_packs n) = Some q) -> open_pack n e = n.
Proof. intros _ [q H]. unfold open_pack. rewrite H. auto. Qed.

Lemma last_pack_zero ps : packs_ok ps -> ps <> [] -> exists q, pack_of 0 ps = Some q.
Proof.
  induction ps as [|p r IH]; intros H Hn; [congruence|].
  unfold pack_of; cbn [find]. destruct (pk_epoch p =? 0)%N eqn:E; [eauto|].
  destruct r as [|q r].
  - destruct H as [_ [_ [_ H]]]. rewrite H in E. discriminate E.
  - apply IH; [destruct H as [H _]; exact H|discriminate].
Qed.


Lemma boot_inv n p r rest act : n_packs n = p :: r -> packs_ok (p :: r) -> chain (saved (p :: r)) ->
  saved (p :: r) = n_exec n ++ rest -> length (saved r) <= length (n_exec n) -> pk_kept p = length (pk_outs p) ->
  slot_ok (n_slot n) (saved (p :: r)) -> n_slots n = [n_slot n] ->
  let n' := boot hd gd bound resume n act in inv n' /\ n_up n' <> None.
Proof.
  intros Ep P C EL Hb Hk Hs Hss. unfold boot.
  rewrite (last_parent_ok n p r rest) by auto.
  rewrite (exec_epoch_ok n p r rest) by auto.
  destruct (open_pack_ok n p r rest) as [p' [r' [Ep' [P' [EL' [Ee' [Hb' [Hk' [Es' [Ess' [Ex' Eu']]]]]]]]]]]; auto.
  set (m := open_pack n (ep (length (n_exec n)))) in *. clearbody m.
  assert (C' : chain (saved (p' :: r'))) by (rewrite EL'; auto).
  assert (Hrest : saved (p' :: r') = n_exec m ++ rest) by (rewrite EL', Ex'; auto).
  rewrite Ep'. rewrite <- Ee', pack_of_hd.
  rewrite (exec_parent_ok m p' r' rest) by (auto; rewrite ?Ex'; auto).
  rewrite (last_parent_ok m p' r' rest) by (auto; rewrite ?Ex', ?Es', ?EL'; auto).
  cbn [snd]. rewrite EL', Ex'.
  assert (Hle : length (n_exec n) <= length (saved (p :: r))) by (rewrite EL, app_length; lia).
  replace (N.to_nat (N.of_nat (length (saved (p :: r))) - N.of_nat (length (n_exec n)))) with (length (saved (p :: r)) - length (n_exec n)) by lia.
  rewrite (replay_ok p' r' P' C') by (rewrite ?EL'; lia).
  assert (Esk : skipn (length (n_exec n)) (saved (p' :: r')) = rest).
  { rewrite EL', EL, skipn_app, skipn_all, Nat.sub_diag. reflexivity. }
  rewrite Esk.
  assert (Hf : match lastof rest with None => N.of_nat (length (saved (p :: r))) | Some o => out_num o end = N.of_nat (length (saved (p' :: r')))).
  { rewrite EL'. destruct (lastof rest) as [o|] eqn:Lo; auto.
    assert (HL : lastof (saved (p :: r)) = Some o).
    { rewrite EL, lastof_app, Lo. destruct rest; [discriminate Lo|auto]. }
    destruct (chain_fields _ _ _ C (lastof_nth _ _ HL)) as [_ [B _]]. rewrite B.
    assert (0 < length (saved (p :: r))) by (destruct (saved (p :: r)); [discriminate HL|simpl; lia]). lia. }
  rewrite Hf.
  assert (Hlen : length (saved (p :: r)) - length (n_exec n) = length rest) by (rewrite EL, app_length; lia).
  rewrite Hlen.
  destruct ((0 <? length rest) && negb (ep (length (saved (p' :: r'))) =? pk_epoch p')%N) eqn:Ecl.
  - apply andb_true_iff in Ecl. destruct Ecl as [_ Ecl]. apply negb_true_iff, N.eqb_neq in Ecl.
    assert (Hb2 : length (saved r') <= length (n_exec m)) by (rewrite Ex'; auto).
    assert (Hs2 : slot_ok (n_slot m) (saved (p' :: r'))) by (rewrite Es', EL'; auto).
    assert (Hss2 : n_slots m = [n_slot m]) by (rewrite Ess', Es'; auto).
    apply (closing_inv m p' r' rest); auto.
    + destruct (ep_end p' r' P' C') as [E|[E _]]; auto. congruence.
  - assert (Hb2 : length (saved r') <= length (n_exec m)) by (rewrite Ex'; auto).
    assert (Hs2 : slot_ok (n_slot m) (saved (p' :: r'))) by (rewrite Es', EL'; auto).
    assert (Hss2 : n_slots m = [n_slot m]) by (rewrite Ess', Es'; auto).
    apply (start_sub_inv m p' r' rest); auto.
    + apply andb_false_iff in Ecl. destruct Ecl as [E|E].
      * apply Nat.ltb_ge in E. assert (length (saved (p' :: r')) = length (n_exec n)) as -> by (rewrite EL'; lia). auto.
      * apply negb_false_iff, N.eqb_eq in E. auto.
Qed.

Lemma restart_inv n act : n_up n = None -> inv n ->
  let n' := restart hd gd bound resume n act in inv n' /\ n_up n' <> None.
Proof.
  intros Hup [P [C D]]. rewrite Hup in D. unfold restart. destruct D as [Dss D].
  destruct D as [[E1 [E2 E3]]|[p [r [rest [E1 [E2 [E3 [E4 E5]]]]]]]].
  - rewrite E2. cbn [fst snd N.eqb andb].
    assert (On : n_exec (open_pack n 0) = [] /\ n_slot (open_pack n 0) = (0%N,0%N) /\ n_slots (open_pack n 0) = [n_slot (open_pack n 0)]).
    { unfold open_pack. rewrite E1. simpl. rewrite E3, E2, Dss, E2. auto. }
    destruct On as [O1 [O2 O3]].
    eapply (boot_inv _ _ [] []); [apply open_pack_empty; auto| | | | | | |auto].
    + split; [exact I|split; [constructor|split; reflexivity]].
    + intros i o H; destruct i; discriminate H.
    + rewrite O1; reflexivity.
    + simpl; lia.
    + reflexivity.
    + rewrite O2; apply slot_ok_nil.
  - rewrite E1 in P, C.
    assert ((if (fst (n_slot n) =? 0)%N && (snd (n_slot n) =? 0)%N then open_pack n 0%N else n) = n) as ->.
    { destruct (_ && _); auto. apply (open_pack_same n p r); auto.
      apply last_pack_zero; rewrite E1; auto. discriminate. }
    apply (boot_inv n p r rest); auto.
Qed.

(** Forwarding a stretch of the saved outputs. *)
Lemma push_ok p r : packs_ok (p :: r) -> chain (saved (p :: r)) ->
  forall os a b eng, saved (p :: r) = a ++ os ++ b -> length (saved r) <= length a ->
  ep (length a) = pk_epoch p ->
  exists c, push bound (pk_epoch p) os eng (N.of_nat (length a)) = (eng ++ os, N.of_nat (length a + length os), c) /\
    (if c then b = [] /\ ep (length (saved (p :: r))) = (pk_epoch p + 1)%N else ep (length a + length os) = pk_epoch p).
Proof.
  intros P C. induction os as [|o os IH]; intros a b eng E Hb He.
  - exists false. simpl. rewrite app_nil_r, !Nat.add_0_r. auto.
  - cbn [push].
    assert (Hn : nth_error (saved (p :: r)) (length a) = Some o).
    { rewrite E, nth_error_app2 by lia. rewrite Nat.sub_diag; auto. }
    destruct (chain_fields _ _ _ C Hn) as [_ [B _]].
    pose proof (ep_succ_closes _ _ _ C Hn) as Es. rewrite He in Es.
    destruct (closes (pk_epoch p) o) eqn:Ec.
    + assert (S (length a) = length (saved (p :: r))) as El.
      { destruct (Nat.lt_ge_cases (S (length a)) (length (saved (p :: r)))) as [Hlt|Hge].
        - pose proof (F1 p r (S (length a)) P C) as F. rewrite F in Es by lia. lia.
        - assert (length a < length (saved (p :: r))) by (apply nth_error_Some; congruence). lia. }
      pose proof El as El2. rewrite E, !app_length in El2. simpl in El2.
      assert (os = [] /\ b = []) as [-> ->] by (destruct os; [destruct b; auto; simpl in *; lia|simpl in *; lia]).
      exists true. split; [|split; auto; rewrite <- El; auto]. rewrite B. simpl length. f_equal. f_equal. lia.
    + destruct (IH (a ++ [o]) b (eng ++ [o])) as [c [H1 H2]].
      * rewrite E, <- !app_assoc. reflexivity.
      * rewrite app_length; lia.
      * rewrite app_length, Nat.add_1_r. simpl. auto.
      * exists c. rewrite app_length in H1, H2. simpl in H1, H2. rewrite Nat.add_1_r in H1, H2.
        rewrite B. rewrite H1. rewrite <- app_assoc. simpl. replace (length a + S (length os)) with (S (length a + length os)) by lia. auto.
Qed.

Lemma slot_of_last L o : chain L -> lastof L = Some o -> slot_ok (sd_epoch (out_sub o), out_num o) L.
Proof.
  intros C H. split; simpl.
  - destruct (chain_fields _ _ _ C (lastof_nth _ _ H)) as [_ [B _]]. rewrite B.
    assert (0 < length L) by (destruct L; [discriminate H|simpl; lia]). lia.
  - rewrite H; auto.
Qed.

Lemma reenter_inv n v act : inv n -> n_up n = Some v -> v_closed v = false ->
  (v_phase v = Idle \/ exists o, v_phase v = Saved o) ->
  let n' := reenter hd gd bound resume n v act in inv n' /\ n_up n' <> None.
Proof.
  intros [P [C U]] Hup Hc Hph. rewrite Hup in U.
  destruct U as [p [r [Ep [Ee [Hb [EL [Ef [PI [CI AI]]]]]]]]]. rewrite Hc in CI. rewrite Ep in P, C.
  unfold reenter. rewrite Ee in *.
  set (a := n_exec n ++ v_eng v) in *.
  assert (La : length a = length (n_exec n) + length (v_eng v)) by (unfold a; apply app_length).
  assert (EL1 : saved (p :: r) = a ++ v_chan v ++ pend (v_phase v)) by (rewrite EL; unfold a; rewrite <- !app_assoc; auto).
  rewrite Ef, <- La.
  destruct (push_ok p r P C (v_chan v) a (pend (v_phase v)) (v_eng v) EL1) as [c1 [H1 H1c]]; [lia|rewrite La; auto|].
  rewrite H1.
  assert (Hk : pk_kept p = length (pk_outs p)) by (unfold phase_inv in PI; destruct Hph as [Hp|[o Hp]]; rewrite Hp in PI; apply PI).
  assert (Hs : slot_ok (n_slot n) (saved (p :: r))).
  { unfold phase_inv in PI. destruct Hph as [Hp|[o Hp]]; rewrite Hp in PI, EL; cbn [pend] in EL.
    - rewrite app_nil_r in EL. rewrite EL. apply PI.
    - destruct PI as [_ [-> _]]. apply slot_of_last; auto. rewrite EL, !app_assoc. apply lastof_snoc. }
  assert (Hss : n_slots n = [n_slot n]) by (unfold phase_inv in PI; destruct Hph as [Hp|[o Hp]]; rewrite Hp in PI; apply PI).
  destruct c1.
  - destruct H1c as [Hpe He1]. rewrite Hpe, app_nil_r in EL1.
    replace (N.of_nat (length a + length (v_chan v))) with (N.of_nat (length (saved (p :: r)))) by (rewrite EL1, app_length; auto).
    apply (closing_inv n p r); auto. rewrite EL1. unfold a. rewrite <- app_assoc; auto.
  - rewrite Ep.
    set (a1 := a ++ v_chan v) in *.
    assert (EL2 : saved (p :: r) = a1 ++ pend (v_phase v)) by (rewrite EL1; unfold a1; rewrite <- app_assoc; auto).
    assert (La1 : length a1 = length a + length (v_chan v)) by (unfold a1; apply app_length).
    rewrite <- La1 in *.
    assert (Hleft : outputs_from p (N.of_nat (length a1) + 1)%N (snd (n_slot n)) = pend (v_phase v)).
    { assert (Hst : pk_start p = (N.of_nat (length (saved r)) + 1)%N) by (destruct P as [_ [_ [E _]]]; auto).
      unfold outputs_from. destruct (_ <? pk_start p)%N eqn:X; [apply N.ltb_lt in X; lia|].
      unfold phase_inv in PI. destruct Hph as [Hp|[o Hp]]; rewrite Hp in PI |- *; cbn [pend].
      - destruct PI as [_ [[Hsl _] _]]. replace (length (n_exec n ++ v_eng v ++ v_chan v)) with (length a1) in Hsl.
        2:{ unfold a1, a. rewrite <- app_assoc; auto. }
        replace (N.to_nat (snd (n_slot n) + 1 - (N.of_nat (length a1) + 1))) with 0 by lia. reflexivity.
      - destruct PI as [_ [Hsl _]]. rewrite Hsl. cbn [snd].
        assert (Hn : nth_error (saved (p :: r)) (length a1) = Some o).
        { rewrite EL2, Hp, nth_error_app2 by lia. rewrite Nat.sub_diag; auto. }
        destruct (chain_fields _ _ _ C Hn) as [_ [B _]]. rewrite B.
        replace (N.to_nat (N.of_nat (S (length a1)) + 1 - (N.of_nat (length a1) + 1))) with 1 by lia.
        replace (N.to_nat (N.of_nat (length a1) + 1 - pk_start p)) with (length a1 - length (saved r)) by lia.
        cbn [saved] in Hn. rewrite nth_error_app2 in Hn by lia. rewrite (skipn_cons_nth _ _ _ Hn). reflexivity. }
    rewrite Hleft.
    destruct (push_ok p r P C (pend (v_phase v)) a1 [] (v_eng v ++ v_chan v)) as [c2 [H2 H2c]]; auto.
    { rewrite app_nil_r; auto. }
    { lia. }
    rewrite H2.
    replace (N.of_nat (length a1 + length (pend (v_phase v)))) with (N.of_nat (length (saved (p :: r)))) by (rewrite EL2, app_length; auto).
    assert (EL3 : saved (p :: r) = n_exec n ++ (v_eng v ++ v_chan v) ++ pend (v_phase v)) by (rewrite EL, <- !app_assoc; auto).
    destruct c2.
    + apply (closing_inv n p r); auto. apply H2c.
    + apply (start_sub_inv n p r); auto. rewrite EL2, app_length. auto.
Qed.

Definition assembly_fails (n : node) (a : option (list (N * N))) : Prop :=
  exists v s parent num w, n_up n = Some v /\ v_wait v = (s, parent, num) :: w /\
    fetch_batches bd (addr (v_epoch v)) (fun _ => a) s parent num = None.

Lemma stop_inv n v : inv n -> n_up n = Some v -> slot_ok (n_slot n) (saved (n_packs n)) -> inv (stop n).
Proof.
  intros [P [C U]] Hup Hs. rewrite Hup in U. destruct U as [p [r [Ep [_ [Hb [EL _]]]]]].
  unfold stop. split; [|split]; cbn [n_packs n_up].
  - apply all_kept_ok; auto.
  - rewrite all_kept_saved; auto.
  - split; [reflexivity|]. right. rewrite Ep in Hs. rewrite Ep. cbn [n_packs all_kept].
    eexists; exists r, (v_eng v ++ v_chan v ++ pend (v_phase v)). split; [reflexivity|].
    cbn [n_exec n_slot pk_kept pk_outs]. split; [exact EL|]. split; auto.
Qed.

Lemma save_inv n v v' o : inv n -> n_up n = Some v -> v_phase v = Idle ->
  chain_output bd addr hd gd G (length (saved (n_packs n))) o ->
  ep (length (saved (n_packs n))) = v_epoch v ->
  v_epoch v' = v_epoch v -> v_eng v' = v_eng v -> v_chan v' = v_chan v -> v_fwd v' = v_fwd v -> v_closed v' = v_closed v ->
  (forall n', length (saved (n_packs n')) = S (length (saved (n_packs n))) -> active_inv n' (with_phase v' (Appended o))) ->
  inv (save n v' o) /\ n_up (save n v' o) <> None.
Proof.
  intros [P [C U]] Hup Hph Ho He E1 E2 E3 E4 E5 HA. rewrite Hup in U.
  destruct U as [p [r [Ep [Ee [Hb [EL [Ef [PI [CI AI]]]]]]]]].
  rewrite Hph in EL. cbn [pend] in EL. rewrite app_nil_r in EL.
  unfold phase_inv in PI. rewrite Hph in PI. destruct PI as [Hk [Hs Hss]]. rewrite <- EL in Hs.
  rewrite Ep in P, C, Ho, He.
  pose proof Ho as [O1 [O2 [O3 _]]].
  assert (Hst : pk_start p = (N.of_nat (length (saved r)) + 1)%N) by (destruct P as [_ [_ [E _]]]; auto).
  assert (Hlen : length (saved (p :: r)) = length (saved r) + length (pk_outs p)) by (cbn [saved]; apply app_length).
  unfold save, append. rewrite Ep.
  destruct (out_num o <=? snd (n_slot n))%N eqn:X1.
  { apply N.leb_le in X1. destruct Hs as [Hs _]. lia. }
  rewrite O1, He, Ee, N.eqb_refl. cbn [negb].
  replace (N.to_nat (out_num o - pk_start p)) with (length (pk_outs p)) by lia.
  rewrite Nat.ltb_irrefl, Nat.eqb_refl.
  split; [|discriminate].
  set (p' := {| pk_epoch := pk_epoch p; pk_start := pk_start p; pk_outs := pk_outs p ++ [o]; pk_kept := pk_kept p |}).
  assert (Esav : saved (p' :: r) = saved (p :: r) ++ [o]) by (cbn [saved p' pk_outs]; now rewrite app_assoc).
  split; [|split]; cbn [n_packs n_up].
  - destruct P as [P1 [P2 [P3 P4]]]. split; auto. split; [|split; auto].
    cbn [p' pk_outs pk_epoch]. apply Forall_app; split; auto. constructor; auto. rewrite O1, He; auto.
  - rewrite Esav. apply chain_snoc; auto.
  - exists p', r. cbn [n_packs n_exec with_phase v_epoch v_eng v_chan v_fwd v_closed v_phase pend].
    rewrite E1, E2, E3, E4, E5. split; auto. split; auto. split; auto.
    split; [rewrite Esav, EL, <- !app_assoc; auto|]. split; auto. split; [|split].
    + unfold phase_inv. cbn [with_phase v_phase n_exec v_eng v_chan n_slot n_slots]. rewrite E2, E3, <- EL.
      cbn [p' pk_kept pk_outs]. rewrite app_length. simpl. split; [lia|]. auto.
    + destruct (v_closed v); auto. destruct CI as [_ [_ CI]]. rewrite He in CI. lia.
    + apply HA. cbn [n_packs]. rewrite Esav, Ep, app_length. simpl. lia.
Qed.

Lemma step_inv n e : inv n -> good_event bd addr hd gd G n e ->
  inv (step n e) /\
  match n_up n with
  | None => match e with Restart _ => n_up (step n e) <> None | _ => step n e = n end
  | Some _ => n_up (step n e) = None -> e = Quit \/ (exists i, e = Kill i) \/ (exists a, e = Fetched a /\ assembly_fails n a)
  end.
Proof.
  intros I0 Hg. pose proof I0 as [P [C U]]. unfold SubModel.step. unfold good_event in Hg.
  destruct (n_up n) as [v|] eqn:Hup.
  2:{ destruct e; auto. apply (restart_inv n active Hup I0). }
  assert (Hsame : inv n /\ (n_up n = None -> e = Quit \/ (exists i, e = Kill i) \/ (exists a, e = Fetched a /\ assembly_fails n a))).
  { split; auto. rewrite Hup. intros X; discriminate X. }
  pose proof U as [p [r [Ep [Ee [Hb [EL [Ef [PI [CI AI]]]]]]]]].
  assert (Pp := P). assert (Cp := C). rewrite Ep in Pp, Cp.
  destruct e.
  - (* Recv *)
    destruct (v_phase v) eqn:Hph; auto.
    destruct (v_active v && negb (v_done v) && (length (v_wait v) <? MAX_PENDING)) eqn:Hc; auto.
    apply andb_true_iff in Hc; destruct Hc as [Hc _]. apply andb_true_iff in Hc; destruct Hc as [Ha Hd].
    apply negb_true_iff in Hd.
    split; [|intros X; discriminate X]. split; [|split]; cbn [set_up n_packs n_up]; auto.
    exists p, r. unfold active_inv in AI. rewrite Ha in AI. destruct AI as [A1 [A2 [A3 [A4 A5]]]].
    unfold recv. cbn [set_up n_packs n_exec v_epoch v_eng v_chan v_phase v_fwd v_closed]. rewrite Hph in *.
    split; auto. split; auto. split; auto. split; auto. split; auto. split; [|split; auto].
    + unfold phase_inv in *. cbn [set_up v_phase n_exec v_eng v_chan n_slot n_slots]. rewrite Hph in *. auto.
    + unfold active_inv. cbn [set_up v_active n_packs v_next v_wait v_num v_parent v_done v_epoch]. rewrite Ha, app_length. simpl length.
      split; [lia|]. split; [lia|]. split; [|split].
      * rewrite A3, A2. cbn [chain_digest]. f_equal. lia.
      * intros j x Hj. destruct (Nat.lt_ge_cases j (length (v_wait v))) as [Hl|Hl].
        -- rewrite nth_error_app1 in Hj by lia. apply A4; auto.
        -- rewrite nth_error_app2 in Hj by lia. destruct (j - length (v_wait v)) as [|d] eqn:Ej; [|destruct d; discriminate Hj].
           injection Hj as <-. replace (length (saved (n_packs n)) + j) with (v_next v) by lia.
           split; [|auto]. rewrite A3, A2. repeat f_equal. lia.
      * intros Hn. destruct (bound (v_epoch v) <=? sd_ts (G (v_next v)))%N eqn:Eb; [discriminate Hn|].
        destruct HE as [_ S1]. rewrite S1, (A5 Hd), Eb. auto.
  - (* Fetched *)
    destruct (v_phase v) eqn:Hph; auto. destruct (v_wait v) as [|[[s par] num] w] eqn:Hw; auto.
    unfold active_inv in AI. destruct (v_active v) eqn:Ha; [|rewrite Hw in AI; discriminate AI].
    destruct AI as [A1 [A2 [A3 [A4 A5]]]].
    destruct (A4 0 (s, par, num)) as [X0 He0]; [rewrite Hw; auto|]. rewrite Nat.add_0_r in *.
    injection X0 as -> -> ->.
    destruct (fetch_batches _ _ _ _ _ _) as [o|] eqn:Fb.
    + assert (Hh : forall (set : list N) answer, (fun _ : list N => a) set = Some answer -> honest_answer bd answer).
      { intros _ answer ->. intros d b Hin. rewrite Forall_forall in Hg. apply (Hg (d, b)); auto. }
      destruct (fetch_batches_ok bd (addr (v_epoch v)) _ _ _ _ _ Hh Fb) as [Ho _].
      destruct (save_inv n v (with_wait v w) o I0 Hup Hph) as [S1 S2]; auto.
      * unfold chain_output. rewrite He0. exact Ho.
      * intros n' Hn'. unfold active_inv. cbn [with_phase with_wait v_active v_wait v_next v_num v_parent v_done v_epoch]. rewrite Ha, Hn'.
        rewrite Hw in A1. simpl in A1. split; [lia|]. split; auto. split; auto. split; auto.
        intros j x Hj. specialize (A4 (S j) x). rewrite Hw in A4. simpl in A4. specialize (A4 Hj).
        replace (S (length (saved (n_packs n))) + j) with (length (saved (n_packs n)) + S j) by lia. auto.
      * split; auto. intros X; contradiction.
    + split.
      * apply (stop_inv n v); auto. unfold phase_inv in PI. rewrite Hph in PI. try rewrite Hph in EL. cbn [pend] in EL. rewrite app_nil_r in EL.
        rewrite Ep, EL. apply PI.
      * intros _. right; right. exists a. split; auto. exists v. do 4 eexists. split; eauto.
  - (* SyncOut *)
    destruct (v_phase v) eqn:Hph; auto. destruct (v_active v || (v_epoch v <? sd_epoch (out_sub o))%N) eqn:Hc; auto.
    apply orb_false_iff in Hc. destruct Hc as [Ha Hlt]. apply N.ltb_ge in Hlt.
    specialize (Hg Ha eq_refl Hlt).
    assert (Hes : ep (length (saved (n_packs n))) = v_epoch v).
    { pose proof Hg as [O1 _]. rewrite O1 in Hlt. rewrite Ep in *. destruct (ep_end p r Pp Cp) as [E|[E _]]; [congruence|].
      rewrite E in Hlt. rewrite Ee in Hlt. lia. }
    destruct (save_inv n v v o I0 Hup Hph Hg Hes) as [S1 S2]; auto.
    { intros n' Hn'. unfold active_inv in *. cbn [with_phase v_active v_wait]. rewrite Ha in *. auto. }
    split; auto. intros X; contradiction.
  - (* SlotUpd *)
    destruct (v_phase v) eqn:Hph; auto. split; [|intros X; discriminate X].
    split; [|split]; cbn [n_packs n_up]; auto. exists p, r.
    cbn [n_packs n_exec with_phase v_epoch v_eng v_chan v_phase v_fwd v_closed]. unfold phase_inv in PI. rewrite Hph in *.
    destruct PI as [K1 [K2 K3]].
    split; auto. split; auto. split; auto. split; auto. split; auto. split; [|split; auto].
    + unfold phase_inv. cbn [with_phase v_phase n_exec v_eng v_chan n_slot n_slots]. split; auto. split; auto.
      exists (n_slot n). rewrite K3. auto.
    + destruct (v_closed v); auto. destruct CI as [_ [X _]]. discriminate X.
  - (* PackSync *)
    destruct (v_phase v) eqn:Hph; auto. split; [|intros X; discriminate X].
    split; [|split]; cbn [n_packs n_up]; [apply all_kept_ok; auto|rewrite all_kept_saved; auto|].
    rewrite Ep. cbn [all_kept]. eexists; exists r.
    cbn [n_packs n_exec with_phase v_epoch v_eng v_chan v_phase v_fwd v_closed]. unfold phase_inv in PI. rewrite Hph in *.
    destruct PI as [K1 [K2 K3]].
    split; [reflexivity|]. split; auto. split; auto. split; auto. split; auto. split; [|split; auto].
    + unfold phase_inv. cbn [with_phase v_phase n_exec v_eng v_chan n_slot n_slots pk_kept pk_outs]. auto.
    + destruct (v_closed v); auto. destruct CI as [_ [X _]]. discriminate X.
    + unfold active_inv in *. cbn [n_packs with_phase v_active v_next v_wait v_num v_parent v_done v_epoch]. rewrite Ep in AI. exact AI.
  - (* SlotSync *)
    destruct (v_phase v) eqn:Hph; auto. split; [|intros X; discriminate X].
    split; [|split]; cbn [n_packs n_up]; auto. exists p, r.
    cbn [n_packs n_exec with_phase v_epoch v_eng v_chan v_phase v_fwd v_closed]. unfold phase_inv in PI. rewrite Hph in *.
    destruct PI as [K1 [K2 K3]].
    split; auto. split; auto. split; auto. split; auto. split; auto. split; [|split; auto].
    + unfold phase_inv. cbn [with_phase v_phase n_exec v_eng v_chan n_slot n_slots]. auto.
    + destruct (v_closed v); auto. destruct CI as [_ [X _]]. discriminate X.
  - (* Send *)
    destruct (v_phase v) eqn:Hph; auto. split; [|intros X; discriminate X].
    split; [|split]; cbn [set_up n_packs n_up]; auto. exists p, r.
    cbn [set_up n_packs n_exec v_epoch v_eng v_chan v_phase v_fwd v_closed pend]. unfold phase_inv in PI. rewrite Hph in *. cbn [pend] in EL.
    destruct PI as [K1 [K2 K3]].
    split; auto. split; auto. split; auto. split; [rewrite app_nil_r; exact EL|]. split; auto. split; [|split; auto].
    + unfold phase_inv. cbn [set_up v_phase n_exec v_eng v_chan n_slot n_slots]. split; auto. split; auto.
      rewrite <- EL, K2. apply slot_of_last; auto. rewrite EL, !app_assoc. apply lastof_snoc.
    + destruct (v_closed v); auto. destruct CI as [_ [X _]]. discriminate X.
  - (* Forward *)
    unfold forward. destruct (v_chan v) as [|o t] eqn:Hch; auto. destruct (v_closed v) eqn:Hcl; [auto|].
    assert (Hn : nth_error (saved (p :: r)) (length (n_exec n) + length (v_eng v)) = Some o).
    { rewrite EL, app_assoc, nth_error_app2 by (rewrite app_length; lia). rewrite app_length, Nat.sub_diag. auto. }
    destruct (chain_fields _ _ _ Cp Hn) as [_ [B _]].
    destruct (out_num o <=? v_fwd v)%N eqn:X1; [apply N.leb_le in X1; lia|].
    destruct (out_num o =? v_fwd v + 1)%N eqn:X2; [|apply N.eqb_neq in X2; lia].
    split; [|intros X; discriminate X]. split; [|split]; cbn [set_up n_packs n_up]; auto. exists p, r.
    cbn [set_up n_packs n_exec v_epoch v_eng v_chan v_phase v_fwd v_closed].
    split; auto. split; auto. split; auto. split; [rewrite EL, <- !app_assoc; auto|].
    split; [rewrite app_length; simpl; lia|]. split; [|split; auto].
    + unfold phase_inv in *. cbn [set_up v_phase n_exec v_eng v_chan n_slot n_slots]. rewrite Hch in PI.
      replace (n_exec n ++ (v_eng v ++ [o]) ++ t) with (n_exec n ++ v_eng v ++ o :: t) by (rewrite <- !app_assoc; auto). exact PI.
    + pose proof (ep_succ_closes _ _ _ Cp Hn) as Es. rewrite CI in Es.
      rewrite app_length, Nat.add_1_r.
      destruct (closes (v_epoch v) o) eqn:Ec.
      * assert (El : S (length (n_exec n) + length (v_eng v)) = length (saved (p :: r))).
        { assert (length (n_exec n) + length (v_eng v) < length (saved (p :: r))) by (apply nth_error_Some; congruence).
          destruct (Nat.lt_ge_cases (S (length (n_exec n) + length (v_eng v))) (length (saved (p :: r)))) as [Hlt|]; [|lia].
          pose proof (F1 p r (S (length (n_exec n) + length (v_eng v))) Pp Cp) as F. rewrite F in Es by lia. lia. }
        rewrite <- El. split; [|split; auto]; rewrite EL, !app_length in El; simpl in El.
        -- destruct t; auto. simpl in El; lia.
        -- destruct (v_phase v); auto; simpl in El; lia.
      * replace (length (n_exec n) + S (length (v_eng v))) with (S (length (n_exec n) + length (v_eng v))) by lia. auto.
  - (* Exec *)
    destruct (v_eng v) as [|o t] eqn:Hen; auto. split; [|intros X; discriminate X].
    split; [|split]; cbn [n_packs n_up]; auto. exists p, r.
    cbn [n_packs n_exec v_epoch v_eng v_chan v_phase v_fwd v_closed].
    split; auto. split; auto. split; [rewrite app_length; lia|]. split; [rewrite EL, <- !app_assoc; auto|].
    split; [rewrite Ef, app_length; simpl; lia|]. split; [|split; auto].
    + unfold phase_inv in *. cbn [v_phase n_exec v_eng v_chan n_slot n_slots]. rewrite Hen in PI.
      replace ((n_exec n ++ [o]) ++ t ++ v_chan v) with (n_exec n ++ (o :: t) ++ v_chan v) by (rewrite <- !app_assoc; auto). exact PI.
    + destruct (v_closed v); auto. rewrite app_length. simpl length in *. replace (length (n_exec n) + 1 + length t) with (length (n_exec n) + S (length t)) by lia. auto.
  - (* NextEpoch *)
    destruct (v_eng v) as [|o t] eqn:Hen; auto. destruct (v_closed v) eqn:Hcl; auto.
    destruct CI as [Hch [Hph Hep]]. rewrite Hch, Hph in EL. cbn [pend app] in EL.
    assert (Hlen : length (n_exec n) = length (saved (p :: r))) by (rewrite EL, app_nil_r; auto).
    assert (Eep : (v_epoch v + 1)%N = ep (length (n_exec n))) by (rewrite Hlen; auto).
    unfold phase_inv in PI. rewrite Hph in PI. destruct PI as [Hk [Hs Hss]].
    destruct (open_pack_ok n p r []) as [p' [r' [Ep' [P' [EL' [Ee' [Hb' [Hk' [Es' [Ess' [Ex' Eu']]]]]]]]]]]; auto.
    rewrite Eep. set (m := open_pack n (ep (length (n_exec n)))) in *. clearbody m.
    assert (C' : chain (saved (p' :: r'))) by (rewrite EL'; auto).
    assert (Hfw : v_fwd v = N.of_nat (length (saved (p' :: r')))) by (rewrite EL', Ef, <- Hlen; cbn [length]; f_equal; lia).
    rewrite Hfw, <- Ee'.
    rewrite Hen, Hch in Hs. cbn [app] in Hs. rewrite <- EL in Hs.
    destruct (start_sub_inv m p' r' [] active) as [Z1 Z2]; auto.
    + rewrite EL', Ex'; auto.
    + rewrite Ex'; auto.
    + rewrite Es', EL'; auto.
    + rewrite Ess', Es'; auto.
    + rewrite EL', <- Hlen; auto.
    + split; auto. intros X; contradiction.
  - (* Reenter *)
    destruct (v_closed v) eqn:Hcl; auto.
    destruct (reenter_inv n v active I0 Hup Hcl Hg) as [Z1 Z2]. split; auto. intros X; contradiction.
  - (* Quit *)
    split; auto. apply (stop_inv n v); auto.
  - (* Kill *)
    destruct (nth_error (n_slots n) i) as [sl|] eqn:Hi; [|auto]. specialize (Hg sl eq_refl). rewrite Ep in *.
    split; [|eauto].
    set (p' := {| pk_epoch := pk_epoch p; pk_start := pk_start p; pk_outs := firstn (pk_kept p) (pk_outs p); pk_kept := pk_kept p |}).
    assert (Hkl : pk_kept p <= length (pk_outs p) /\ length (pk_outs p) <= pk_kept p + length (pend (v_phase v))).
    { unfold phase_inv in PI. destruct (v_phase v); cbn [pend length]; destruct PI as [K _]; lia. }
    assert (Esp : saved (p' :: r) = firstn (length (saved r) + pk_kept p) (saved (p :: r))).
    { cbn [saved p' pk_outs]. rewrite firstn_app, (firstn_all2 (saved r)) by lia. f_equal. f_equal. lia. }
    assert (Hlen : length (saved (p :: r)) = length (saved r) + length (pk_outs p)) by (cbn [saved]; apply app_length).
    split; [|split]; cbn [n_packs n_up].
    + destruct P as [P1 [P2 [P3 P4]]]. split; auto. split; [|split; auto].
      cbn [p' pk_outs pk_epoch]. rewrite Forall_forall in *. intros x Hx. apply P2.
      rewrite <- (firstn_skipn (pk_kept p) (pk_outs p)). apply in_or_app; auto.
    + rewrite Esp. rewrite <- (firstn_skipn (length (saved r) + pk_kept p) (saved (p :: r))) in C. eapply chain_app; exact C.
    + split; [reflexivity|]. right. exists p', r. cbn [n_packs n_exec n_slot].
      exists (firstn (length (saved r) + pk_kept p - length (n_exec n)) (v_eng v ++ v_chan v ++ pend (v_phase v))).
      split; [reflexivity|]. split; [|split; [auto|split]].
      * rewrite Esp, EL, firstn_app, firstn_all2; auto.
        rewrite Hlen in *. rewrite EL, !app_length in Hlen. lia.
      * cbn [p' pk_kept pk_outs]. rewrite firstn_length. lia.
      * exact Hg.
  - (* Restart *) auto.
Qed.

Lemma run_inv evs : forall n, inv n -> good_history bd addr hd gd bound G resume n evs -> inv (fold_left step evs n).
Proof.
  induction evs as [|e t IH]; intros n I0 H; simpl in *; auto.
  destruct H as [H1 H2]. apply IH; auto. apply step_inv; auto.
Qed.
End P.
