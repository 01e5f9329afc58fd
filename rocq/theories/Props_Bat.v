(** C46: worker batches - validity, quorum, availability. *)
From Verif Require Import Util WireModel WireSpec WireProofs BatModel BatSpec BatProofs BatProofs2 BatProofs3 BatProofs4.
Local Open Scope N_scope.

(* ---------- what a worker accepts ---------- *)
(** A batch passes the validator exactly if the digest is its own and it is valid. *)
Theorem C46_validate_exact : forall H recover v d b,
  validate H recover v d b = None <-> d = digest H b /\ valid recover v b.
Proof. exact validate_iff. Qed.
(** The acknowledgement of a reported batch means: the reporter is a member, the batch is valid, it is stored under its digest
    and recorded as available; a refused batch leaves no trace. *)
Theorem C46_report : forall H recover v m d b stop s s' ack, report_batch H recover v m d b stop s = (s', ack) ->
  (ack = true -> m = true /\ valid recover v b /\ d = digest H b /\ local s' d = Some b /\ In (d, v_worker v) (n_pay s')) /\
  (~ (d = digest H b /\ valid recover v b) -> s' = s /\ ack = false) /\
  (m = true -> stop = false -> d = digest H b -> valid recover v b -> ack = true).
Proof.
  intros H recover v m d b stop s s' ack E. split; [|split].
  - intros ->. apply report_ext in E. destruct E as (_ & _ & E). destruct (E eq_refl) as (A & B & C & D).
    apply validate_iff in B. tauto.
  - intros Nv. assert (V : validate H recover v d b <> None) by (intros V; apply validate_iff in V; contradiction).
    unfold report_batch in E. destruct (negb m); [injection E as <- <-; auto|]. destruct (validate H recover v d b); [injection E as <- <-; auto|contradiction].
  - intros -> -> Ed Vb. assert (V : validate H recover v d b = None) by (apply validate_iff; auto). unfold report_batch in E. cbn [negb] in E. rewrite V in E.
    injection E as <- <-. reflexivity.
Qed.
(** The fatal reasons; a wrong epoch, an undecodable transaction or a wrong type is not among them. *)
Theorem C46_fatal_reasons : forall H recover v d b e, validate H recover v d b = Some e -> penalty_of e = PFatal ->
  d <> digest H b \/ b_worker b <> v_worker v \/ b_fee b <> v_fee v \/ b_txs b = [] \/
  1000000 < sumN (map lenN (b_txs b)) \/
  (exists ts, Forall2 (fun x t => recover x = Some t) (b_txs b) ts /\ 30000000 < sumN (map t_gas ts)).
Proof.
  intros H recover v d b e. unfold validate. destruct (beqb_spec d (digest H b)) as [|]; cbn [negb]; [|auto].
  destruct (N.eqb_spec (b_worker b) (v_worker v)); cbn [negb]; [|auto]. destruct (N.eqb_spec (b_epoch b) (v_epoch v)); cbn [negb]; [|intros [= <-]; discriminate 1].
  destruct (b_txs b) as [|t0 tl] eqn:Et; [auto|]. rewrite <- Et. unfold max_batch_size. destruct (N.ltb_spec 1000000 (sumN (map lenN (b_txs b)))); [auto 6|].
  destruct (recover_all recover (b_txs b)) as [ts|] eqn:R; [|intros [= <-]; discriminate 1]. apply recover_all_iff in R.
  destruct (check_types ts) as [e'|] eqn:C.
  { intros [= ->]. clear - C. induction ts as [|t l IH]; cbn in C; [discriminate C|]. destruct (allowlisted (t_kind t)); [auto|]. destruct (t_kind t); injection C as <-; discriminate 1. }
  destruct (sum_gas 0 ts) as [g|] eqn:G.
  - apply sum_gas_some in G. cbn in G. unfold max_batch_gas. destruct (N.ltb_spec 30000000 g) as [L|L].
    + intros _ _. do 5 right. exists ts. split; [exact R|]. lia.
    + destruct (N.eqb_spec (b_fee b) (v_fee v)); cbn [negb]; [discriminate 1|]. auto.
  - intros _ _. do 5 right. exists ts. split; [exact R|]. destruct (N.le_gt_cases (sumN (map t_gas ts)) 30000000) as [L|L]; [|exact L].
    rewrite (sum_gas_fits ts 0) in G by (cbn; exact L). discriminate G.
Qed.

(* ---------- what a worker builds ---------- *)
(** The built batch stays within both limits, holds only allowed types, and of every sender the transactions it holds are
    the first ones of that sender in nonce order: no gap. *)
Theorem C46_built_limits : forall best, Forall small best ->
  gas_of (chosen best) <= 30000000 /\ size_of (chosen best) <= 1000000 /\
  Forall (fun p => p_kind p = KLegacy \/ p_kind p = K2930 \/ p_kind p = K1559) (chosen best) /\
  (forall p, In p (chosen best) -> In p best) /\
  (forall a, exists rest, of_sender a best = of_sender a (chosen best) ++ rest).
Proof.
  intros best S. destruct (bloop_sums best S) as (_ & _ & G & Z & K). split; [exact G|]. split; [exact Z|]. split; [|split].
  - eapply Forall_impl; [|exact K]. intros p. cbn. destruct (p_kind p); auto; discriminate 1.
  - apply chosen_in.
  - intros a. destruct (sender_prefix best a) as (rest & E & _). eauto.
Qed.
(** A transaction is left out only for a reason: its type, no room, or an earlier one of the same sender left out. *)
Theorem C46_built_greedy : forall l p, Forall small (l ++ [p]) -> chosen (l ++ [p]) = chosen l ->
  (p_kind p = K4844 \/ p_kind p = K7702) \/
  30000000 < gas_of (chosen l) + p_gas p \/ 1000000 < size_of (chosen l) + p_size p \/
  exists pre q post, l = pre ++ q :: post /\ p_sender q = p_sender p /\ chosen (pre ++ [q]) = chosen pre.
Proof. exact left_out. Qed.
(** The batch of an honest builder passes every honest validator of the same epoch, worker and fee, provided something was
    chosen and the in-memory size of a transaction is at least its encoding. *)
Theorem C46_built_batch_accepted : forall H recover v best bal benef,
  Forall small best -> Forall (fun p => recover (p_enc p) = Some {| t_kind := p_kind p; t_gas := p_gas p |}) best ->
  Forall (fun p => lenN (p_enc p) <= p_size p) best -> chosen best <> [] ->
  let b := o_batch (build_batch best bal benef (v_epoch v) (v_worker v) (v_fee v)) in
  validate H recover v (digest H b) b = None.
Proof. intros. apply validate_iff. split; [reflexivity|]. apply built_valid; assumption. Qed.
(** The pool update after the seal: one account per sender, nonce one above the largest mined, balance less the costs. *)
Theorem C46_pool_update : forall best bal benef ep w fee, Forall (fun p => p_cost p <= u256_max) best ->
  let o := build_batch best bal benef ep w fee in
  o_mined o = map p_hash (chosen best) /\ b_txs (o_batch o) = map p_enc (chosen best) /\
  NoDup (map a_addr (o_changed o)) /\
  (forall a, In a (map a_addr (o_changed o)) <-> In a (map p_sender (chosen best))) /\
  (forall x, In x (o_changed o) ->
     a_nonce x = fold_right N.max 0 (map p_nonce (of_sender (a_addr x) (chosen best))) + 1 /\
     a_balance x = bal (a_addr x) - N.min (2 ^ 256 - 1) (cost_of (of_sender (a_addr x) (chosen best)))).
Proof.
  intros best bal benef ep w fee F o. split; [reflexivity|]. split; [reflexivity|]. apply (changed_spec bal (chosen best)).
  rewrite Forall_forall in *. intros p I. apply F, chosen_in, I.
Qed.
(** Nothing chosen: the batch is empty, it is sent anyway, and every honest member charges the reporter with a fatal penalty. *)
Theorem C46_REFUTED_builder_never_punished : exists best bal benef v H recover,
  let o := build_batch best bal benef (v_epoch v) (v_worker v) (v_fee v) in
  best <> [] /\ Forall small best /\
  exists e, validate H recover v (digest H (o_batch o)) (o_batch o) = Some e /\ penalty_of e = PFatal.
Proof.
  exists [{| p_hash := 1; p_sender := 5; p_nonce := 0; p_gas := 21000; p_cost := 1; p_kind := K7702; p_size := 200; p_enc := [4] |}],
    (fun _ => 10), (repeat 0 20), {| v_worker := 0; v_fee := 7; v_epoch := 1 |}, (fun b => b), (fun _ => None).
  cbv zeta. split; [discriminate|]. split; [repeat constructor|]. exists EEmpty. vm_compute. auto.
Qed.
(** The gas total is an unchecked u64 sum: a transaction with a gas limit near 2^64 wraps it. *)
Theorem C46_REFUTED_gas_limit_of_built : exists best, 30000000 < gas_of (chosen best).
Proof.
  exists [{| p_hash := 1; p_sender := 5; p_nonce := 0; p_gas := 21000; p_cost := 1; p_kind := KLegacy; p_size := 200; p_enc := [4] |};
          {| p_hash := 2; p_sender := 6; p_nonce := 0; p_gas := 2 ^ 64 - 1; p_cost := 1; p_kind := KLegacy; p_size := 200; p_enc := [4] |}].
  vm_compute. reflexivity.
Qed.
Definition demo_tx (s n g : N) (k : kind) : ptx :=
  {| p_hash := 100 * s + n; p_sender := s; p_nonce := n; p_gas := g; p_cost := 3; p_kind := k; p_size := 120; p_enc := [s; n] |}.
Definition demo_best : list ptx :=
  [demo_tx 1 0 21000 K1559; demo_tx 2 4 29990000 KLegacy; demo_tx 1 1 9000 K2930; demo_tx 3 0 21000 K4844; demo_tx 2 5 100 KLegacy; demo_tx 1 2 21000 K1559].
Example demo_build : Forall small demo_best /\
  map p_hash (chosen demo_best) = [100; 101; 102] /\ s_blobs (bloop demo_best) = [300] /\
  map (fun a => (a_addr a, a_nonce a, a_balance a)) (o_changed (build_batch demo_best (fun _ => 50) (repeat 0 20) 1 0 7)) = [(1, 3, 41)].
Proof. split; [repeat constructor|]. vm_compute. auto. Qed.
Definition demo_recover (e : bytes) : option tx :=
  match e with [s; n] => if s <? 10 then Some {| t_kind := KLegacy; t_gas := 21000 |} else None | _ => None end.
Definition demo_v : validator := {| v_worker := 0; v_fee := 7; v_epoch := 1 |}.
Definition demo_b : batch := {| b_txs := [[1; 0]; [2; 4]]; b_epoch := 1; b_benef := repeat 9 20; b_fee := 7; b_worker := 0 |}.
Example demo_valid : valid demo_recover demo_v demo_b /\ batch_wf demo_b /\ fits_frame demo_b /\
  validate (fun b => b) demo_recover demo_v (put_batch demo_b) demo_b = None /\
  snd (report_batch (fun b => b) demo_recover demo_v true (put_batch demo_b) demo_b false n0) = true.
Proof.
  split; [|split; [|split; [unfold fits_frame; intros C; discriminate C|split; reflexivity]]].
  - apply (validate_iff (fun b => b) demo_recover demo_v (put_batch demo_b) demo_b). reflexivity.
  - repeat split; try reflexivity; repeat constructor.
Qed.

(* ---------- the quorum waiter ---------- *)
(** Three attempts per peer; the first that is not a transient failure decides. *)
Theorem C46_waiter : forall rs,
  (waiter 3 rs = AAccept <-> exists k t, (k < 3)%nat /\ rs = repeat RTransient k ++ ROk :: t) /\
  (waiter 3 rs = AReject <-> exists k t, (k < 3)%nat /\ rs = repeat RTransient k ++ RRefused :: t).
Proof.
  assert (G : forall n rs, (waiter n rs = AAccept <-> exists k t, (k < n)%nat /\ rs = repeat RTransient k ++ ROk :: t) /\
                           (waiter n rs = AReject <-> exists k t, (k < n)%nat /\ rs = repeat RTransient k ++ RRefused :: t)).
  { induction n as [|n IH]; intros rs; cbn [waiter].
    - split; (split; [discriminate 1|intros (k & t & L & _); lia]).
    - destruct rs as [|r rs]; [split; (split; [discriminate 1|intros ([|k] & t & _ & E); discriminate E])|].
      destruct r.
      + split; (split; [try discriminate 1|intros ([|k] & t & _ & E); [discriminate E || reflexivity|discriminate E]]).
        intros _. exists O, rs. split; [lia|reflexivity].
      + split; (split; [try discriminate 1|intros ([|k] & t & _ & E); [discriminate E || reflexivity|discriminate E]]).
        intros _. exists O, rs. split; [lia|reflexivity].
      + destruct (IH rs) as [A B]. rewrite A, B.
        split; (split; [intros (k & t & L & ->); exists (S k), t; split; [lia|reflexivity]|]);
          (intros ([|k] & t & L & E); [discriminate E|]; injection E as ->; exists k, t; split; [lia|reflexivity]). }
  apply G.
Qed.
(** The batch is declared sealed only if, with the own one, a quorum of the [n] members accepted, and whenever that many
    accept, in whatever order all answers come and whoever else refuses; once every peer answered there is a verdict. *)
Theorem C46_quorum_exact : forall n answers, 2 <= n -> N.of_nat (length answers) <= n - 1 ->
  (verify_batch n answers = Some QOk <-> quorum n <= 1 + accepts answers).
Proof.
  intros n answers N2 L. split; [apply qloop_ok|]. intros Q. apply qloop_enough; [exact L|lia|apply quorum_gt1; exact N2|exact Q].
Qed.
Theorem C46_quorum_two_thirds : forall n, 3 * quorum n > 2 * n /\ 3 * (quorum n - 1) <= 2 * n.
Proof. intros n. unfold quorum. lia. Qed.
Theorem C46_quorum_verdict : forall n answers, N.of_nat (length answers) = n - 1 -> exists r, verify_batch n answers = Some r.
Proof. intros n answers L. apply qloop_decides. exact L. Qed.
(** A failure is reported early only if the answers still to come cannot make a quorum; "rejected" only if more members
    rejected than a quorum can spare. *)
Theorem C46_quorum_failure : forall n answers r, 2 <= n -> N.of_nat (length answers) <= n - 1 ->
  verify_batch n answers = Some r -> r <> QOk ->
  (forall rest, N.of_nat (length (answers ++ rest)) <= n - 1 -> 1 + accepts (answers ++ rest) < quorum n) /\
  (r = QRejected -> n - quorum n < rejects answers).
Proof.
  intros n answers r N2 L E Nr. apply qloop_fail in E; [|exact L|lia|apply quorum_gt1; exact N2|exact Nr]. destruct E as [A B].
  split; [|intros Er; specialize (B Er); lia]. intros rest Lr. unfold accepts in *. rewrite filter_app, app_length in *.
  pose proof (filter_length_le' (fun a => match a with AAccept => true | _ => false end) rest). lia.
Qed.
(** Which failure is reported is not a function of the answers: their order decides. *)
Theorem C46_REFUTED_failure_kind : exists n a b, N.of_nat (length a) = n - 1 /\ Permutation a b /\
  verify_batch n a = Some QRejected /\ verify_batch n b = Some QAnti.
Proof.
  exists 4, [AReject; AReject; ANetwork], [AReject; ANetwork; AReject]. split; [reflexivity|]. split; [|vm_compute; auto].
  repeat constructor.
Qed.
Example demo_quorum : verify_batch 4 [ANetwork; AAccept; AAccept] = Some QOk /\ verify_batch 4 [AReject; AReject] = Some QRejected /\
  verify_batch 7 [AAccept; AReject; AAccept] = None.
Proof. vm_compute. auto. Qed.
(** The own batch enters the store and the proposer only after the quorum. *)
Theorem C46_seal : forall H v b q stop s s' ok, seal H v b q stop s = (s', ok) ->
  (ok = true -> q = Some QOk /\ local s' (digest H b) = Some b /\ In (digest H b, v_worker v) (n_own s')) /\
  (q <> Some QOk -> s' = s) /\ (forall e, In e (n_own s') -> In e (n_own s) \/ q = Some QOk /\ e = (digest H b, v_worker v)).
Proof.
  intros H v b q stop s s' ok E. unfold seal in E.
  destruct q as [[| |]|]; try (injection E as <- <-; split; [discriminate 1|]; split; auto; fail).
  destruct stop; injection E as <- <-.
  - split; [discriminate 1|]. split; [congruence|]. auto.
  - split; [|split; [congruence|]].
    + intros _. split; [reflexivity|]. split; [|left; reflexivity]. unfold local, lookup. cbn. destruct (beqb_spec (digest H b) (digest H b)); [reflexivity|contradiction].
    + intros e [<-|I]; auto.
Qed.

(* ---------- availability ---------- *)
(** [reach]: any sequence of reports, prefetches, seals, votes, certificates, synchronisations, fetches, writes to disk and
    crashes, with arbitrary messages from peers.  Fewer than a third of the members are bad. *)
Definition few_bad (committee : list N) (honest : N -> bool) : Prop :=
  3 * N.of_nat (length (filter (fun i => negb (honest i)) committee)) < N.of_nat (length committee).

(** Of every batch of a certified header, at every later moment: all but the bad members and those that lost cached batches in
    a crash, of a quorum, hold it, under its own digest. *)
Theorem C46_certified_available : forall H recover v committee honest es h d w, few_bad committee honest ->
  let g := reach H recover v committee honest es in
  In h (g_certs g) -> In (d, w) (h_payload h) ->
  exists hs, NoDup hs /\ incl hs committee /\
    (forall i, In i hs -> honest i = true /\ held H (g_node g i) d) /\
    quorum (N.of_nat (length committee)) <=
      N.of_nat (length hs) + N.of_nat (length (filter (fun i => negb (honest i)) committee)) + N.of_nat (length (g_lost g)).
Proof.
  intros H recover v committee honest es h d w F g I Ie.
  destruct (holders H recover v committee honest F es h (d, w) I Ie) as (hs & A & B & C & D). exists hs. split; [exact A|]. split; [exact B|].
  split; [|exact D]. intros i Ii. destruct (C i Ii) as (X & _ & Y). auto.
Qed.
(** Without losses: more holders than bad members, at least a third of the committee. *)
Theorem C46_certified_available_no_loss : forall H recover v committee honest es h d w, few_bad committee honest ->
  let g := reach H recover v committee honest es in
  g_lost g = [] -> In h (g_certs g) -> In (d, w) (h_payload h) ->
  exists hs, NoDup hs /\ incl hs committee /\ (forall i, In i hs -> honest i = true /\ held H (g_node g i) d) /\
    (length (filter (fun i => negb (honest i)) committee) < length hs)%nat /\
    N.of_nat (length committee) < 3 * N.of_nat (length hs).
Proof.
  intros H recover v committee honest es h d w F g Lo I Ie.
  destruct (C46_certified_available H recover v committee honest es h d w F I Ie) as (hs & A & B & C & D). exists hs. do 3 (split; [assumption|]).
  fold g in D. rewrite Lo in D. cbn [length] in D. unfold few_bad in F. unfold quorum in D. split; lia.
Qed.
(** A member is counted as lossy only if a crash hit it while its cache was not on disk. *)
Theorem C46_losses : forall H recover v committee honest es e i,
  let g := reach H recover v committee honest es in let g' := gstep H recover v committee honest g e in
  In i (g_lost g') -> In i (g_lost g) \/ (e = EvCrash i /\ (n_cdur (g_node g i) < length (n_cache (g_node g i)))%nat).
Proof.
  intros H recover v committee honest es e i g g' I. subst g'.
  destruct e as [j m d b stop|j d ps|j b q stop|j h plan|j h|h signers|j h plan|j ds rounds|j d|j c p|j]; cbn [gstep] in I;
    repeat match type of I with
    | In _ (g_lost (let '(_, _) := ?x in _)) => destruct x
    | In _ (g_lost (if ?x then _ else _)) => destruct x
    | In _ (g_lost (match ?x with Some _ => _ | None => _ end)) => destruct x
    end; try (left; exact I).
  cbn [g_lost] in I. apply in_app_iff in I. destruct I as [I|I]; [|auto].
  destruct (Nat.ltb_spec (n_cdur (g_node g j)) (length (n_cache (g_node g j)))); [|destruct I]. destruct I as [->|[]]. auto.
Qed.
(** Every certified digest is the digest of a valid batch; and whatever an honest node stores under a digest has that digest and
    the bytes of a valid batch - or the two byte strings collide under the hash. *)
Theorem C46_certified_valid : forall H recover v committee honest es h d w, few_bad committee honest ->
  let g := reach H recover v committee honest es in
  In h (g_certs g) -> In (d, w) (h_payload h) -> exists b, valid recover v b /\ digest H b = d.
Proof.
  intros H recover v committee honest es h d w F g I Ie.
  exact (cert_valid H recover v committee honest F es h (d, w) I Ie).
Qed.
Theorem C46_stored_valid : forall H recover v committee honest es i d b, few_bad committee honest ->
  let g := reach H recover v committee honest es in
  local (g_node g i) d = Some b ->
  digest H b = d /\ exists b', valid recover v b' /\ (put_batch b = put_batch b' \/ collides H (put_batch b) (put_batch b')).
Proof.
  intros H recover v committee honest es i d b F g L.
  destruct (held_valid H recover v committee honest F es i d b L) as [A [V|(b' & [[V C]|[V E]])]]; split; try exact A.
  - exists b. auto.
  - exists b'. auto.
  - exists b'. auto.
Qed.
(** So two honest nodes never give a digest two meanings. *)
Theorem C46_same_batch : forall H recover v committee honest es i j d a b, few_bad committee honest ->
  let g := reach H recover v committee honest es in
  local (g_node g i) d = Some a -> local (g_node g j) d = Some b -> batch_wf a -> batch_wf b ->
  a = b \/ collides H (put_batch a) (put_batch b).
Proof.
  intros H recover v committee honest es i j d a b F g La Lb Wa Wb.
  destruct (C46_stored_valid H recover v committee honest es i d a F La) as [Ea _].
  destruct (C46_stored_valid H recover v committee honest es j d b F Lb) as [Eb _].
  destruct (list_eq_dec N.eq_dec (put_batch a) (put_batch b)) as [E|E]; [left; apply put_batch_inj; assumption|right; split; [exact E|]].
  unfold digest in *. congruence.
Qed.
(** A vote is given only when the node holds every batch of the header (a node that lost nothing in a crash). *)
Theorem C46_vote_needs_batches : forall H recover v committee honest es i h d w, few_bad committee honest ->
  let g := reach H recover v committee honest es in
  In (i, h) (g_votes g) -> In (d, w) (h_payload h) -> ~ In i (g_lost g) -> held H (g_node g i) d.
Proof.
  intros H recover v committee honest es i h d w F g I Ie Nl. pose proof (GI_reach H recover v committee honest F es) as G. fold g in G.
  destruct (gi_vote _ _ _ _ _ _ G i h (d, w) I Ie) as [_ L]. specialize (L Nl). cbn [fst] in L.
  destruct (local (g_node g i) d) as [b|] eqn:El; [|contradiction]. exists b. split; [exact El|].
  apply (C46_stored_valid H recover v committee honest es i d b F El).
Qed.

(* ---------- asking and serving ---------- *)
(** Whatever peers send: only batches that were asked for come back, each under its own digest, none twice, and what did
    not come is reported missing. *)
Theorem C46_request_sound : forall H passes req got rest, request_batches H passes req = (Some got, rest) ->
  NoDup (map fst got) /\ Forall (fun e => fst e = digest H (snd e)) got /\
  (forall d, In d req <-> In d rest \/ In d (map fst got)).
Proof. intros H passes req got rest E. apply (request_J H (fun _ => None)) in E. destruct E as (A & B & _ & C). auto. Qed.
(** An honest peer answers with exactly what it holds of the request. *)
Theorem C46_serve_exact : forall H s req, keyed H (n_cache s) -> keyed H (n_chain s) -> NoDup req ->
  (forall d b, In d req -> local s d = Some b -> batch_wf b /\ frame_len b <= max_frame) ->
  exists got, read_sync H req (serve H s req) [] = Some got /\
    forall d b, In (d, b) got <-> In d req /\ local s d = Some b.
Proof. intros H s req Kc Kh. apply serve_all. split; assumption. Qed.
(** The payload of committed headers is always obtained in one round of up to 500 digests if of every digest some
    answering peer is an honest holder - the others may send anything; and what is obtained is right. *)
Theorem C46_fetch_live : forall H peers passes rounds ds s, keyed H (n_cache s) -> keyed H (n_chain s) -> (length ds <= 500)%nat ->
  (forall d, In d ds -> local s d <> None \/
     exists p s', In p peers /\ (forall req, p req = Some (serve H s' req)) /\ keyed H (n_cache s') /\ keyed H (n_chain s') /\ local s' d <> None /\
       (forall x b, In x ds -> local s' x = Some b -> batch_wf b /\ frame_len b <= max_frame)) ->
  exists s' got, fetch_for_primary H ((peers :: passes) :: rounds) ds s = (s', Some got).
Proof.
  intros H peers passes rounds ds s Kc Kh L C. apply fetch_live; [split; assumption|exact L|].
  intros d I. destruct (C d I) as [|(p & s' & A1 & A2 & A3 & A4 & A5 & A6)]; [auto|]. right. exists p, s'. repeat (split; [assumption|]).
  split; [split; assumption|]. split; assumption.
Qed.
Theorem C46_fetch_sound : forall H rounds ds s s' got, keyed H (n_cache s) -> keyed H (n_chain s) ->
  fetch_for_primary H rounds ds s = (s', Some got) ->
  (forall d, In d ds -> In d (map fst got)) /\ (forall d b, In (d, b) got -> d = digest H b /\ In d ds) /\
  (forall d, local s d <> None -> local s' d <> None).
Proof.
  intros H rounds ds s s' got Kc Kh E. apply (fetch_spec H (fun _ => None) demo_v (fun _ => False)) in E; [|exact Kc|exact Kh]. destruct E as [X G].
  destruct (G got eq_refl) as [A B]. split; [exact A|]. split.
  - intros d b I. rewrite Forall_forall in B. exact (B _ I).
  - intros d. eapply ext_local. exact X.
Qed.
(** All together: in any reachable state without losses, a node asking all honest members gets every certified batch. *)
Theorem C46_certified_fetchable : forall H recover v committee honest es i peers passes rounds ds, few_bad committee honest ->
  let g := reach H recover v committee honest es in
  g_lost g = [] -> (length ds <= 500)%nat ->
  (forall d, In d ds -> exists h w, In h (g_certs g) /\ In (d, w) (h_payload h)) ->
  (forall j, In j committee -> honest j = true -> exists p, In p peers /\ forall req, p req = Some (serve H (g_node g j) req)) ->
  (forall j d b, local (g_node g j) d = Some b -> batch_wf b /\ frame_len b <= max_frame) ->
  exists s' got, fetch_for_primary H ((peers :: passes) :: rounds) ds (g_node g i) = (s', Some got) /\
    (forall d, In d ds -> In d (map fst got)) /\ (forall d b, In (d, b) got -> digest H b = d).
Proof.
  intros H recover v committee honest es i peers passes rounds ds F g Lo Ld Cd Pe Fit.
  pose proof (GI_reach H recover v committee honest F es) as G. fold g in G.
  assert (K : forall j, keyed H (n_cache (g_node g j)) /\ keyed H (n_chain (g_node g j))) by (intros j; destruct (gi_node _ _ _ _ _ _ G j); auto).
  destruct (C46_fetch_live H peers passes rounds ds (g_node g i) (proj1 (K i)) (proj2 (K i)) Ld) as (s' & got & E).
  - intros d I. right. destruct (Cd d I) as (h & w & Ih & Iw).
    destruct (C46_certified_available_no_loss H recover v committee honest es h d w F Lo Ih Iw) as (hs & _ & Ic & Hh & Hb & _).
    destruct hs as [|j t]; [cbn in Hb; lia|]. destruct (Hh j (or_introl eq_refl)) as [Hj (b & Lb & _)].
    destruct (Pe j (Ic j (or_introl eq_refl)) Hj) as (p & Ip & Sp). exists p, (g_node g j).
    split; [exact Ip|]. split; [exact Sp|]. split; [apply K|]. split; [apply K|]. split; [fold g in Lb; congruence|]. intros x b' _. apply Fit.
  - exists s', got. split; [exact E|]. destruct (C46_fetch_sound H _ _ _ _ _ (proj1 (K i)) (proj2 (K i)) E) as (A & B & _).
    split; [exact A|]. intros d b I. symmetry. apply B. exact I.
Qed.

(* ---------- where it fails ---------- *)
Lemma uleb2 n : 128 <= n -> n < 16384 -> lenN (uleb n) = 2.
Proof.
  intros A B. unfold uleb. rewrite uleb_step. destruct (N.ltb_spec n 128); [lia|]. rewrite uleb_step. destruct (N.ltb_spec (n / 128) 128); [reflexivity|lia].
Qed.
Lemma lenN_app a b : lenN (a ++ b) = lenN a + lenN b. Proof. unfold lenN. rewrite app_length. lia. Qed.
Lemma concat_repeat {A} (f : A -> bytes) x n : lenN (concat (map f (repeat x n))) = N.of_nat n * lenN (f x).
Proof. induction n as [|n IH]; cbn [repeat map concat]; [reflexivity|]. rewrite lenN_app, IH. lia. Qed.
Definition big_tx : bytes := repeat 0 1000.
Definition big : batch := {| b_txs := repeat big_tx 1000; b_epoch := 1; b_benef := repeat 9 20; b_fee := 7; b_worker := 0 |}.
Definition big_recover (e : bytes) : option tx := Some {| t_kind := KLegacy; t_gas := 29800 |}.
Lemma big_len : lenN (put_batch big) = 1002037.
Proof.
  unfold put_batch, put_seq. rewrite !lenN_app. unfold big. cbn [b_txs b_epoch b_benef b_fee b_worker]. rewrite repeat_length, concat_repeat.
  change (N.of_nat 1000) with 1000. rewrite uleb2 by lia. unfold put_fixed at 1. rewrite lenN_app. change (N.of_nat (length big_tx)) with 1000. rewrite uleb2 by lia.
  change (lenN big_tx) with 1000. unfold lenN. rewrite !le_length. vm_compute. reflexivity.
Qed.
Lemma big_too_big : ~ fits_frame big.
Proof.
  unfold fits_frame, frame_len. unfold put_fixed. change (3 :: ?x) with ([3] ++ x). rewrite !lenN_app, big_len. unfold max_frame, max_batch_size.
  change (lenN [3]) with 1. lia.
Qed.
Lemma big_valid : valid big_recover demo_v big.
Proof.
  split; [reflexivity|]. split; [reflexivity|]. split; [reflexivity|]. split; [discriminate|]. split.
  - unfold big. cbn [b_txs]. vm_compute. discriminate.
  - exists (repeat {| t_kind := KLegacy; t_gas := 29800 |} 1000). split; [|split].
    + assert (R : forall k, Forall2 (fun e t => big_recover e = Some t) (repeat big_tx k) (repeat {| t_kind := KLegacy; t_gas := 29800 |} k))
        by (induction k as [|k IH]; cbn [repeat]; constructor; [reflexivity|exact IH]).
      exact (R 1000%nat).
    + apply Forall_forall. intros t I. apply repeat_spec in I. subst t. auto.
    + vm_compute. discriminate.
Qed.
Lemma big_wf : batch_wf big.
Proof.
  assert (B : buf big_tx) by (split; [reflexivity|apply Forall_forall; intros x I; apply repeat_spec in I; subst x; reflexivity]).
  unfold batch_wf, big. cbn [b_txs b_epoch b_benef b_fee b_worker]. split; [|split; [|repeat split; repeat constructor]].
  - unfold fits. rewrite repeat_length. reflexivity.
  - apply Forall_forall. intros t I. apply repeat_spec in I. subst t. exact B.
Qed.
(** A valid batch need not be servable: 1000 transactions of 1000 bytes keep every limit, and the stream frame (limit 1,001,024
    bytes) has no room for them; every honest holder then answers any request that names it with a broken stream. *)
Theorem C46_REFUTED_valid_is_servable : exists recover v b, valid recover v b /\ batch_wf b /\
  forall H s req, keyed H (n_cache s) -> keyed H (n_chain s) -> NoDup req -> In (digest H b) req -> local s (digest H b) = Some b ->
    read_sync H req (serve H s req) [] = None.
Proof.
  exists big_recover, demo_v, big. split; [apply big_valid|]. split; [apply big_wf|]. intros H s req Kc Kh Nd I L.
  eapply serve_poison; [split; [exact Kc|exact Kh]|exact Nd|exact I|exact L|apply big_too_big].
Qed.
(** One batch too long for a frame hides all others of the request. *)
Theorem C46_one_batch_poisons : forall H s req d b, keyed H (n_cache s) -> keyed H (n_chain s) -> NoDup req ->
  In d req -> local s d = Some b -> max_frame < frame_len b -> read_sync H req (serve H s req) [] = None.
Proof.
  intros H s req d b Kc Kh Nd I L F. eapply serve_poison; [split; [exact Kc|exact Kh]|exact Nd|exact I|exact L|]. unfold fits_frame. lia.
Qed.
(** Batches of at most 320 transactions always fit. *)
Lemma uleb_max3 n : n < 2097152 -> lenN (uleb n) <= 3.
Proof.
  intros L. unfold uleb. rewrite uleb_step. destruct (N.ltb_spec n 128); [cbn; lia|]. rewrite uleb_step.
  destruct (N.ltb_spec (n / 128) 128); [cbn; lia|]. rewrite uleb_step. destruct (N.ltb_spec (n / 128 / 128) 128); [cbn; lia|lia].
Qed.
Lemma concat_fixed_len l : Forall (fun t => lenN t <= 1000000) l -> lenN (concat (map put_fixed l)) <= sumN (map lenN l) + 3 * N.of_nat (length l).
Proof.
  induction l as [|t l IH]; intros F; [cbn; lia|]. inversion F; subst. cbn [map concat length]. rewrite lenN_app, sumN_cons.
  unfold put_fixed at 1. rewrite lenN_app. pose proof (uleb_max3 (N.of_nat (length t))) as U. unfold lenN in H1 at 1. specialize (U ltac:(lia)). specialize (IH H2). lia.
Qed.
Lemma sumN_ge x l : In x l -> x <= sumN l.
Proof. induction l as [|y l IH]; intros []; rewrite sumN_cons; [subst; lia|]. apply IH in H. lia. Qed.
Theorem C46_small_batches_servable : forall b, batch_wf b -> sumN (map lenN (b_txs b)) <= 1000000 -> (length (b_txs b) <= 320)%nat ->
  frame_len b <= max_frame.
Proof.
  intros b W S L. unfold frame_len, max_frame, max_batch_size.
  assert (P : lenN (put_batch b) <= 1000000 + 998).
  { destruct W as (_ & _ & _ & [Wb _] & _ & _).
    assert (Pb : lenN (put_fixed (b_benef b)) = 21).
    { unfold put_fixed. rewrite lenN_app. unfold lenN at 2. unfold bytes in *. rewrite Wb. reflexivity. }
    assert (Pl : forall k n, lenN (le k n) = N.of_nat k) by (intros; unfold lenN; rewrite le_length; reflexivity).
    unfold put_batch, put_seq. rewrite !lenN_app, Pb, !Pl.
    pose proof (uleb_max3 (N.of_nat (length (b_txs b)))) as U. specialize (U ltac:(lia)).
    pose proof (concat_fixed_len (b_txs b)) as C. assert (F : Forall (fun t => lenN t <= 1000000) (b_txs b)).
    { apply Forall_forall. intros t I. apply (in_map lenN) in I. apply sumN_ge in I. lia. }
    specialize (C F). lia. }
  unfold put_fixed. change (3 :: ?x) with ([3] ++ x). rewrite !lenN_app. change (lenN [3]) with 1.
  pose proof (uleb_max3 (N.of_nat (length (put_batch b)))) as U. specialize (U ltac:(unfold lenN, bytes in *; lia)). lia.
Qed.

(** Crashes: the batch cache is not synced to disk before a report is acknowledged or a vote is sent, but the record that the
    batch is available is.  Four honest members, a batch acknowledged by all, a crash of all: they still vote for the
    header, it is certified, and nobody has the batch. *)
Definition dH (b : bytes) : bytes := b.
Definition dd : bytes := put_batch demo_b.
Definition dh : hdr := {| h_author := 0; h_payload := [(dd, 0)] |}.
Definition normal : list ev :=
  [EvReport 1 true dd demo_b false; EvReport 2 true dd demo_b false; EvReport 3 true dd demo_b false; EvSeal 0 demo_b (Some QOk) false; EvOwn 0 dh].
Definition votes : list ev := [EvVote 1 dh []; EvVote 2 dh []; EvVote 3 dh []; EvCert dh [0; 1; 2; 3]].
Definition bad_day : list ev := normal ++ map (fun i => EvFlush i 0 1) [1; 2; 3] ++ map EvCrash [0; 1; 2; 3] ++ votes.
Theorem C46_REFUTED_available_after_crash : let g := reach dH demo_recover demo_v [0; 1; 2; 3] (fun _ => true) bad_day in
  few_bad [0; 1; 2; 3] (fun _ => true) /\ In dh (g_certs g) /\ In (dd, 0) (h_payload dh) /\
  (forall i, In i [0; 1; 2; 3] -> ~ held dH (g_node g i) dd).
Proof.
  cbv zeta. split; [reflexivity|]. split; [vm_compute; auto|]. split; [left; reflexivity|].
  intros i I (b & L & _). repeat (destruct I as [<-|I]; [vm_compute in L; discriminate L|]). destruct I.
Qed.
(** Without the crash: the hypotheses of the availability theorems are met, a certificate exists, everybody holds the batch. *)
Example normal_day : let g := reach dH demo_recover demo_v [0; 1; 2; 3] (fun i => negb (i =? 3)) (normal ++ votes) in
  few_bad [0; 1; 2; 3] (fun i => negb (i =? 3)) /\ g_certs g = [dh] /\ g_lost g = [] /\
  forall i, In i [0; 1; 2; 3] -> local (g_node g i) dd = Some demo_b.
Proof.
  cbv zeta. split; [reflexivity|]. split; [vm_compute; reflexivity|]. split; [vm_compute; reflexivity|].
  intros i I. repeat (destruct I as [<-|I]; [vm_compute; reflexivity|]). destruct I.
Qed.
(** A newcomer (member 3 without the report) synchronises with lying peers around an honest one and then votes. *)
Definition liar : peer := fun _ => Some [FData (put_batch {| b_txs := [[1; 1]]; b_epoch := 1; b_benef := repeat 9 20; b_fee := 7; b_worker := 0 |}); FEnd].
Definition holder : peer := fun req => Some (serve dH (insert_batch dd demo_b n0) req).
Example sync_day : let es := [EvReport 1 true dd demo_b false; EvReport 2 true dd demo_b false; EvSeal 0 demo_b (Some QOk) false; EvOwn 0 dh;
    EvVote 1 dh []; EvVote 2 dh []; EvVote 3 dh [([[[liar; fun _ => None; holder; liar]]], None)]; EvCert dh [0; 1; 3]] in
  let g := reach dH demo_recover demo_v [0; 1; 2; 3] (fun _ => true) es in
  g_certs g = [dh] /\ local (g_node g 3) dd = Some demo_b /\ In (3, dh) (g_votes g) /\ n_pay (g_node g 3) = [(dd, 0)].
Proof. vm_compute. auto. Qed.
(** The worker id a header claims is not compared with the batch's own: a batch of worker 0 the node already holds is recorded under any id. *)
Theorem C46_REFUTED_claimed_worker : exists s h s', held dH s dd /\ In (dd, 9) (h_payload h) /\ b_worker demo_b = 0 /\
  sync_header dH demo_recover 1 demo_v false h [([[[]]], None)] s = (s', true) /\ In (dd, 9) (n_pay s').
Proof.
  exists (insert_batch dd demo_b n0), {| h_author := 0; h_payload := [(dd, 9)] |}. eexists. split; [exists demo_b; vm_compute; auto|].
  split; [left; reflexivity|]. split; [reflexivity|]. split; [vm_compute; reflexivity|left; reflexivity].
Qed.
(** A synchronisation that fails half way keeps the batches already read. *)
Theorem C46_REFUTED_sync_all_or_nothing : exists got s s', snd (store_synced dH demo_recover demo_v false [dd] got s) = false /\
  fst (store_synced dH demo_recover demo_v false [dd] got s) = s' /\ n_cache s' <> n_cache s.
Proof. exists [(dd, demo_b); ([1], demo_b)], n0. eexists. split; [vm_compute; reflexivity|]. split; [reflexivity|]. vm_compute. discriminate. Qed.
