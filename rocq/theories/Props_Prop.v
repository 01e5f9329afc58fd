(** C29 and C31: what the node's own proposer and certifier externalise, across crashes and restarts. *)
From Verif Require Import Util Types LdbModel LdbProofs LdbHist LdbChain VoteModel PropModel PropSpec PropProofs1 PropProofs2.
Local Open Scope N_scope.

(** C29: two headers the node ever handed out for one round of one epoch are the same header. *)
Theorem C29_one_header_per_round : forall me e prim disk evs h1 h2,
  disk KP = None -> along quiet_start (pinit me e prim disk) evs ->
  let n := prun (pinit me e prim disk) evs in
  In h1 (p_sent n) -> In h2 (p_sent n) -> h_epoch h1 = h_epoch h2 -> h_round h1 = h_round h2 -> h1 = h2.
Proof.
  intros me e prim disk evs h1 h2 Hd Ha n H1 H2 E R.
  destruct (prun_pinv evs _ (inv0_init me e prim disk) (pinv_init me e prim disk Hd) Ha) as [_ P].
  apply (pi_uniq _ _ _ _ _ _ P); [| |split; assumption]; unfold pool; apply in_app_iff; left; assumption.
Qed.

(** C29: a header handed out in the current epoch survives a crash at any later point: the guard record read back after the
    crash is that header, or one of a later round. *)
Theorem C29_sent_header_survives_crash : forall me e prim disk evs h,
  disk KP = None -> along quiet_start (pinit me e prim disk) evs ->
  let n := prun (pinit me e prim disk) evs in
  In h (p_sent n) -> h_epoch h = p_epoch n ->
  exists w, last_proposed (l_crash (p_db n)) = Some w /\ h_epoch w = p_epoch n /\ (h_round h < h_round w \/ h = w).
Proof.
  intros me e prim disk evs h Hd Ha n H1 E.
  destruct (prun_pinv evs _ (inv0_init me e prim disk) (pinv_init me e prim disk Hd) Ha) as [Z P].
  pose proof (pi_sent _ _ _ _ _ _ P) as S. rewrite Forall_forall in S. destruct (S h H1) as [_ Sh].
  assert (F : l_full (p_db n) = true) by apply (z_base _ _ Z).
  pose proof (crash_settled KP _ _ F Sh) as K. apply settled_get in K. cbn in K. destruct (K E) as (w & K1 & K2 & K3).
  exists w. split; [apply last_get; exact K1|]. auto.
Qed.

(** C29: within the node's epoch, rounds never go backwards. *)
Theorem C29_rounds_never_go_back : forall me e prim disk evs ev h,
  disk KP = None -> along quiet_start (pinit me e prim disk) evs ->
  let n := prun (pinit me e prim disk) evs in
  p_sent (pstep n ev) = p_sent n ++ [h] -> h_epoch h = p_epoch n ->
  forall x, In x (p_sent n) -> h_epoch x = p_epoch n -> h_round x <= h_round h.
Proof.
  intros me e prim disk evs ev h Hd Ha n Hs Eh x Hx Ex.
  destruct (prun_pinv evs _ (inv0_init me e prim disk) (pinv_init me e prim disk Hd) Ha) as [Z P].
  destruct (sent_step n ev Z P) as [E|(h' & E & H)].
  - rewrite E in Hs. apply (f_equal (@length header)) in Hs. rewrite app_length in Hs. cbn in Hs. lia.
  - rewrite E in Hs. apply app_inv_head in Hs. injection Hs as ->. apply H; assumption.
Qed.

(** C31: once the task that assembled a certificate has released it, every certificate externalised afterwards for the same
    header is that certificate: through crashes, restarts and epoch changes. *)
Theorem C31_released_certificate_is_final : forall me e prim disk a b c,
  disk KP = None -> (forall g, disk (KC g) = None) ->
  coll_free (p_sent (prun (pinit me e prim disk) (a ++ b))) ->
  In c (p_rel (prun (pinit me e prim disk) a)) ->
  exists new, p_ext (prun (pinit me e prim disk) (a ++ b)) = p_ext (prun (pinit me e prim disk) a) ++ new /\
    forall c', In c' new -> h_digest (c_header c') = h_digest (c_header c) -> c' = c.
Proof.
  intros me e prim disk a b c H1 H2 F Hc. rewrite prun_app in *.
  destruct (prun_cinv a _ (inv0_init me e prim disk) (cinv_init me e prim disk H1 H2)) as [Z C].
  - eapply coll_incl; [apply sent_mono_run|exact F].
  - exact (rel_later b _ c Z C F Hc).
Qed.

(** C31: a released certificate of the current epoch is on disk: after a crash at any later point it is what the certifier
    finds for that header. *)
Theorem C31_released_certificate_survives_crash : forall me e prim disk evs c,
  disk KP = None -> (forall g, disk (KC g) = None) ->
  let n := prun (pinit me e prim disk) evs in
  coll_free (p_sent n) -> In c (p_rel n) -> h_epoch (c_header c) = p_epoch n ->
  stored_cert (l_crash (p_db n)) (h_digest (c_header c)) = Some c.
Proof.
  intros me e prim disk evs c H1 H2 n F Hc E.
  destruct (prun_cinv evs _ (inv0_init me e prim disk) (cinv_init me e prim disk H1 H2) F) as [Z C].
  pose proof (ci_rel _ _ _ _ _ _ _ _ C) as R. rewrite Forall_forall in R. specialize (R c Hc).
  assert (Fl : l_full (p_db n) = true) by apply (z_base _ _ Z).
  pose proof (crash_settled _ _ _ Fl R) as K. apply settled_get in K. apply stored_get. destruct K as [K|[_ K]]; [exact K|].
  unfold cep in K. fold n in K. lia.
Qed.

(** C31: if the certifier only publishes stored certificates again once they are on disk, at most one certificate is ever
    externalised per header. *)
Theorem C31_one_certificate_per_header : forall me e prim disk evs c1 c2,
  disk KP = None -> (forall g, disk (KC g) = None) ->
  let n := prun (pinit me e prim disk) evs in
  coll_free (p_sent n) -> along prompt (pinit me e prim disk) evs ->
  In c1 (p_ext n) -> In c2 (p_ext n) -> h_digest (c_header c1) = h_digest (c_header c2) -> c1 = c2.
Proof.
  intros me e prim disk evs c1 c2 H1 H2 n F A I1 I2 E.
  assert (A0 : AInv (pinit me e prim disk)).
  { split; [exact (cinv_init me e prim disk H1 H2)|intros x y []]. }
  destruct (prun_ainv evs _ (inv0_init me e prim disk) A0 F A) as [_ U]. apply U; assumption.
Qed.

(* ---- witnesses ---- *)
Definition hd (k : N) : header := mkHeader 0 0 0 k [] [] 0 0 0 k.
Definition give (b : header) : list pev := [PPropose b true; PStore true true; PPersistReq; PDb true; PDb true; PAck; PSendHdr].
Definition again : list pev := [PRepropose; PStore true true; PPersistReq; PDb true; PDb true; PAck; PSendHdr].
Definition start : pnode := pinit 7 3 0 (fun _ => None).

(* rounds 1 and 2 proposed; a crash after the record of round 3 was written but not sent, then on, then the next epoch *)
Definition busy : list pev :=
  give (hd 11) ++ give (hd 12) ++ [PPropose (hd 13) true; PStore true true; PPersistReq; PDb true; PDb true; PCrash 1 true]
  ++ give (hd 23) ++ give (hd 14) ++ [PNextEpoch 4 0 true true true; PDb true; PDb true] ++ give (hd 15).
Lemma C29_witness : along quiet_start start busy /\
  map (fun h => (h_epoch h, h_round h, h_digest h)) (p_sent (prun start busy)) =
  [(3, 1, 11); (3, 2, 12); (3, 3, 13); (3, 4, 14); (4, 1, 15)].
Proof. split; [repeat split|reflexivity]. Qed.

(** What C29 needs: if the record cannot be read when the proposer starts, the node makes different headers for rounds it has
    already proposed (proposer.rs 193-216 logs the error and starts at round 0). *)
Theorem C29_unreadable_record_refuted : exists evs h1 h2,
  In h1 (p_sent (prun start evs)) /\ In h2 (p_sent (prun start evs)) /\
  h_epoch h1 = h_epoch h2 /\ h_round h1 = h_round h2 /\ h_digest h1 <> h_digest h2.
Proof.
  exists (give (hd 11) ++ give (hd 12) ++ [PCrash 0 false; PPropose (hd 21) true; PStore true true; PSendHdr]),
         (mkHeader 7 1 3 11 [] [] 0 0 0 11), (mkHeader 7 1 3 21 [] [] 0 0 0 21).
  vm_compute. split; [tauto|]. split; [tauto|]. repeat split. discriminate.
Qed.
(** ... and so does a proposer that is handed parents two rounds below its record after the consensus chain moved past it
    (the record is then ignored at start, and process_parents lowers the primary round). *)
Theorem C29_lowered_parents_refuted : exists evs h1 h2,
  In h1 (p_sent (prun start evs)) /\ In h2 (p_sent (prun start evs)) /\
  h_epoch h1 = h_epoch h2 /\ h_round h1 = h_round h2 /\ h_digest h1 <> h_digest h2.
Proof.
  exists (give (hd 11) ++ give (hd 12) ++ give (hd 13) ++ [PCrash 3 true; PParents 1; PPropose (hd 22) true; PStore true true; PSendHdr]),
         (mkHeader 7 2 3 12 [] [] 0 0 0 12), (mkHeader 7 2 3 22 [] [] 0 0 0 22).
  vm_compute. split; [tauto|]. split; [tauto|]. repeat split. discriminate.
Qed.

(* a certificate is assembled and released; the node crashes, re-proposes the header and publishes the same certificate *)
Definition cert1 : list pev := give (hd 11) ++ [CRecv].
Definition cert2 : list pev :=
  [CCert 0 (VerifiedDirectly 91) [1; 2; 3] true; CPersistReq 0; PDb true; PDb true; CAck 0; PCrash 0 true] ++ give (hd 21) ++ [CRecv].
Definition certified : list pev := cert1 ++ CLock 0 :: cert2 ++ [CLock 0].
Lemma along_app ok evs1 : forall n evs2, along ok n (evs1 ++ evs2) <-> along ok n evs1 /\ along ok (prun n evs1) evs2.
Proof. induction evs1 as [|e l IH]; intros n evs2; cbn; [tauto|]. rewrite IH. tauto. Qed.
Lemma along_nolock evs : forall n, (forall i, ~ In (CLock i) evs) -> along prompt n evs.
Proof.
  induction evs as [|e l IH]; intros n H; cbn; [exact I|]. split.
  - destruct e; try exact I. exfalso. apply (H i). left. reflexivity.
  - apply IH. intros i Hi. apply (H i). right. exact Hi.
Qed.
Lemma C31_witness :
  p_ext (prun start certified) = [mkCert (mkHeader 7 1 3 11 [] [] 0 0 0 11) (VerifiedDirectly 91) [1; 2; 3];
                                  mkCert (mkHeader 7 1 3 11 [] [] 0 0 0 11) (VerifiedDirectly 91) [1; 2; 3]] /\
  p_rel (prun start certified) = [mkCert (mkHeader 7 1 3 11 [] [] 0 0 0 11) (VerifiedDirectly 91) [1; 2; 3]] /\
  coll_free (p_sent (prun start certified)) /\ along prompt start certified.
Proof.
  split; [reflexivity|]. split; [reflexivity|]. split.
  - intros a b Ha Hb _. vm_compute in Ha, Hb. intuition congruence.
  - unfold certified. apply along_app. split; [apply along_nolock; intros i; cbn; intuition discriminate|].
    split.
    + intros h c H1 H2. vm_compute in H1. injection H1 as <-. vm_compute in H2. discriminate.
    + apply along_app. split; [apply along_nolock; intros i; cbn; intuition discriminate|]. split; [|exact I].
      intros h c H1 H2. vm_compute in H1. injection H1 as <-. vm_compute in H2. injection H2 as <-. vm_compute. reflexivity.
Qed.

(** What the code's own argument misses (proposer.rs 370-378): a re-proposed header whose barrier was answered before the first
    task wrote its record lets the second task publish a certificate that is only in memory. A crash then loses the record
    and a different certificate for the same header is assembled and externalised. *)
Theorem C31_republish_race_refuted : exists evs c1 c2,
  coll_free (p_sent (prun start evs)) /\ In c1 (p_ext (prun start evs)) /\ In c2 (p_ext (prun start evs)) /\
  c_header c1 = c_header c2 /\ c1 <> c2.
Proof.
  exists (give (hd 11) ++ [CRecv; CLock 0] ++ again ++ [CRecv; CCert 0 (VerifiedDirectly 91) [1; 2; 3] true; CLock 1; PCrash 0 true]
          ++ again ++ [CRecv; CLock 0; CCert 0 (VerifiedDirectly 92) [1; 2; 4] true; CPersistReq 0; PDb true; PDb true; CAck 0]),
         (mkCert (mkHeader 7 1 3 11 [] [] 0 0 0 11) (VerifiedDirectly 91) [1; 2; 3]),
         (mkCert (mkHeader 7 1 3 11 [] [] 0 0 0 11) (VerifiedDirectly 92) [1; 2; 4]).
  split; [intros a b Ha Hb _; vm_compute in Ha, Hb; intuition congruence|]. vm_compute.
  split; [tauto|]. split; [tauto|]. split; [reflexivity|discriminate].
Qed.
