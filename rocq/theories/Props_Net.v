(** C47: agreement of the whole network, from the components. Nothing is assumed about the DAG: it is whatever certificates the
    honest validators accept in an arbitrary execution of the vote services, proposers, certifiers and certificate intake
    of all of them (NetModel), with their crashes, restarts, I/O failures and epoch changes, while up to f validators of each
    committee behave arbitrarily. *)
From Verif Require Import Util Types CommitteeModel CommitteeProofs CertModel LeaderModel LdbModel VoteModel VoteSpec PropModel PropSpec SyncModel
  SyncSpec BullModel BullSpec Props_Cert Props_Vote Props_Prop Props_Leader Props_Fetch Props_Bull NetModel NetSpec NetProofs NetProofs2.
Local Open Scope N_scope.

(** The certified DAG of every epoch is one the ordering engine can rely on: members only, no two headers for one author and
    round, and a quorum of parents that are themselves certified. *)
Theorem C47_certified_dag_is_sound : forall T real, network_ok T real ->
  forall tr, execution T real tr -> forall e, dag_ok (nt_cm T e) (certified_dag T e tr).
Proof. intros T real OK tr X e. exact (certified_dag_ok T real OK e tr X). Qed.

(* more certificates, more reachable consensus states *)
Lemma node_mono S (G G' : header -> Prop) s c : (forall h, G h -> G' h) -> node S G s c -> node S G' s c.
Proof.
  intros H N. unfold node in *. induction N as [certs s [A B] R|s c x s' ds N IH Gx F|s c k certs s' N IH [A B] W R].
  - apply r_start with certs; [split; auto|exact R].
  - eapply r_cert; eauto.
  - eapply r_restart; eauto. split; auto.
Qed.
Lemma accepted_mono T k a b c : accepted T k a c -> accepted T k (a ++ b) c.
Proof. intros (p & g & q & -> & H). exists p, g, (q ++ b). split; [rewrite <- app_assoc; reflexivity|exact H]. Qed.
Lemma dag_mono T e a b h : certified_dag T e a h -> certified_dag T e (a ++ b) h.
Proof. intros (H1 & H2 & k & c & H3 & H4 & H5). split; [exact H1|]. split; [exact H2|]. exists k, c. split; [exact H3|]. split; [apply accepted_mono; exact H4|exact H5]. Qed.

(** Agreement: take any two moments of one execution, and two consensus engines, one fed at each moment with certificates that
    honest validators of the epoch had accepted by then, each with any history of its own. One committed chain extends the
    other. *)
Theorem C47_agreement : forall T real, network_ok T real ->
  forall tr, execution T real tr ->
  forall e S, S_cm S = nt_cm T e -> sqrt_ok (S_sqrt S) -> choose_ok (S_choose S) -> S_depth S <= 100 -> S_pct S <= 33 ->
  S_active S e = true ->
  forall t1 t2, prefix t1 tr -> prefix t2 tr ->
  forall s1 c1 s2 c2, node S (certified_dag T e t1) s1 c1 -> node S (certified_dag T e t2) s2 c2 ->
  prefix c1 c2 \/ prefix c2 c1.
Proof.
  intros T real OK tr X e S Ec Sq Ch Dp Pc Ac t1 t2 [q1 E1] [q2 E2] s1 c1 s2 c2 N1 N2.
  apply (C08_commit_sequences_agree S (certified_dag T e tr)) with (s1 := s1) (s2 := s2).
  - split; [rewrite Ec; apply (nk_cm _ _ OK)|]. do 4 (split; [assumption|]). rewrite Ec. apply (certified_dag_ok T real OK e tr X).
  - intros h (<- & _). exact Ac.
  - eapply node_mono; [|exact N1]. intros h. rewrite E1. apply dag_mono.
  - eapply node_mono; [|exact N2]. intros h. rewrite E2. apply dag_mono.
Qed.

(** Every header an honest consensus engine orders was examined: a quorum of the committee signed it, and each honest signer
    other than its author had run the complete vote check on it with a positive answer: batches available, execution
    result confirmed, seed signature valid, a quorum of certified parents. *)
Theorem C47_ordered_headers_were_vetted : forall T real, network_ok T real ->
  forall tr, execution T real tr ->
  forall e S, S_cm S = nt_cm T e -> sqrt_ok (S_sqrt S) -> choose_ok (S_choose S) -> S_depth S <= 100 -> S_pct S <= 33 ->
  forall s c d h, node S (certified_dag T e tr) s c -> In d c -> In h (sd_headers d) ->
  exists K, NoDup K /\ incl K (bls_keys (nt_cm T e)) /\ cm_quorum (nt_cm T e) <= N.of_nat (length K) /\
    forall k, In k K -> honest T k -> nt_id T k <> h_author h ->
      exists pre i en post, tr = pre ++ GVote k (VCheck i en) :: post /\ admissible (nt_cm T e) en h.
Proof.
  intros T real OK tr X e S Ec Sq Ch Dp Pc s c d h N Hd Hh.
  assert (SO : setting_ok S (certified_dag T e tr)).
  { split; [rewrite Ec; apply (nk_cm _ _ OK)|]. do 4 (split; [assumption|]). rewrite Ec. apply (certified_dag_ok T real OK e tr X). }
  destruct (C10_subdag_shape S _ SO s c N d Hd) as (_ & _ & G & _). specialize (G h Hh).
  destruct (dag_quorum T real OK e tr h X G) as [_ (K & K1 & K2 & K3 & K4)]. destruct G as (Ee & _). rewrite Ee in K2, K3.
  exists K. split; [exact K1|]. split; [exact K2|]. split; [exact K3|]. intros k Hk Hh2 Na.
  destruct (K4 k Hk Hh2) as [V|V]; [|exfalso; apply Na; symmetry; apply (sent_real T real OK k tr h Hh2 X V)].
  destruct (nk_start _ _ OK k Hh2) as (_ & Hdk & _).
  destruct (C28_votes_only_for_admissible_headers real _ _ (nk_inj _ _ OK) (voter_built T real OK k Hh2) Hdk _ _ (voter_hist T real OK k tr X) V)
    as (pre & i & en & post & E & A).
  destruct (vhist_split k tr pre _ post E) as (p & q & Et & Ep). exists p, i, en, q. split; [exact Et|].
  assert (Ek : com_at T k p = nt_cm T (cm_epoch (com_at T k p))).
  { apply (voter_com T real OK); [exact Hh2|]. rewrite Et in X. apply (exec_prefix T real _ _ X). }
  unfold com_at, voter in Ek. rewrite Ep in Ek. rewrite <- (ad_epoch _ _ _ A), Ee in Ek. rewrite <- Ek. exact A.
Qed.

(** An honest validator's signature appears under one header per author, epoch and round, whichever component made it and
    whatever crashed in between. *)
Theorem C47_one_signature_per_slot : forall T real, network_ok T real ->
  forall tr, execution T real tr -> forall k h1 h2, honest T k -> signed_hdr T k tr h1 -> signed_hdr T k tr h2 ->
  h_author h1 = h_author h2 -> h_epoch h1 = h_epoch h2 -> h_round h1 = h_round h2 -> h1 = h2.
Proof. intros T real OK tr X k h1 h2. exact (fun Hk => signed_once T real OK k tr h1 h2 Hk X). Qed.

(** ... and with more than f faulty validators agreement is not claimed; what is: every certificate an honest validator accepts
    from round 1 on carries a quorum whose honest members did sign that very header. *)
Theorem C47_accepted_means_quorum_signed : forall T real, network_ok T real ->
  forall tr, execution T real tr -> forall k c, honest T k -> accepted T k tr c -> 1 <= c_round c -> quorum_signed T tr (c_header c).
Proof.
  intros T real OK tr X k c Hk A R. destruct (accepted_sound T real OK tr k c Hk X A) as [_ [[S _]|S]]; [unfold c_round in R; lia|exact S].
Qed.

(* ---- a concrete execution: four validators (4 is faulty), three rounds by authors 101..103, a fetch with a forged ancestor
   signature, and a commit ---- *)
Definition en_cm (e : N) : committee :=
  match build (fun k => k + 100) e [(1, 0); (2, 0); (3, 0); (4, 0)] with Some c => c | None => mkCommittee 0 [] [] 0 0 end.
Definition en_dig (r a : N) : N := 1000 * r + a.
Definition en_h (r a : N) : header :=
  mkHeader a r 5 (100 + r) [(77, 0)] (if r =? 0 then [] else map (en_dig (r - 1)) [101; 102; 103]) 0 0 (r + a) (en_dig r a).
Definition en_gen : list cert := map (fun a => mkCert (en_h 0 a) Genesis []) [101; 102; 103; 104].
Definition en_real (h : header) : Prop := exists r a, a < 1000 /\ h = en_h r a.
Definition en_T : network :=
  mkNet en_cm [4] (fun k => k + 100) (fun _ => en_cm 5) (fun _ _ => None) (fun _ => 5) (fun _ => 0) (fun _ _ => None) (fun _ => en_gen) 50
        toy_averify toy_verify toy_agg 0.
Lemma en_dig_inj r a r' a' : a < 1000 -> a' < 1000 -> en_dig r a = en_dig r' a' -> r = r' /\ a = a'.
Proof. unfold en_dig. lia. Qed.
Lemma en_cm_eq e : build (fun k => k + 100) e [(1, 0); (2, 0); (3, 0); (4, 0)] = Some (en_cm e).
Proof. vm_compute. reflexivity. Qed.
Lemma en_ok : network_ok en_T en_real.
Proof.
  assert (In4 : forall e k, In k (bls_keys (en_cm e)) -> k = 1 \/ k = 2 \/ k = 3 \/ k = 4).
  { intros e k Hk. assert (E : bls_keys (en_cm e) = [1; 2; 3; 4]) by (vm_compute; reflexivity).
    rewrite E in Hk. cbn in Hk. intuition. }
  constructor; cbn [nt_cm nt_faulty nt_id nt_com0 nt_vdisk nt_pdisk nt_genesis en_T].
  - intros e. split; [eexists _, e, _; apply en_cm_eq|vm_compute; reflexivity].
  - intros e. vm_compute. discriminate.
  - intros e k Hk. apply In4 in Hk. destruct Hk as [-> |[-> |[-> | ->]]]; vm_compute; eexists; split; reflexivity.
  - intros k _. split; [vm_compute; reflexivity|]. split; [reflexivity|reflexivity].
  - intros _ g Hg. assert (Hh : exists a, a < 1000 /\ c_header g = en_h 0 a).
    { unfold en_gen in Hg. apply in_map_iff in Hg as (a & <- & Ha). exists a. split; [|reflexivity]. cbn in Ha.
      destruct Ha as [<-|[<-|[<-|[<-|[]]]]]; lia. }
    destruct Hh as (a & La & Eh). unfold c_round, c_parents. rewrite Eh. split; [exists 0, a; split; [exact La|reflexivity]|split; reflexivity].
  - intros h1 h2 (r & a & La & ->) (r' & a' & La' & ->) E. destruct (en_dig_inj _ _ _ _ La La' E) as [-> ->]. reflexivity.
  - exists N.to_nat. intros x y (r & a & La & ->) (r' & a' & La' & ->) H. unfold en_h in *. cbn [h_digest h_parents] in *.
    destruct (r' =? 0) eqn:Z; [destruct H|]. apply N.eqb_neq in Z. apply in_map_iff in H as (b & E & Hb).
    assert (b < 1000) by (cbn in Hb; destruct Hb as [<-|[<-|[<-|[]]]]; lia).
    destruct (en_dig_inj _ _ _ _ H La E) as [<- <-]. unfold en_dig. lia.
Qed.

(* actions: an event, or a vote check that sees exactly what the validator has accepted so far *)
Inductive en_act := AEv (g : gev) | ACheck (k : N).
Fixpoint acc_list (T : network) (k : N) (pre rest : list gev) : list cert :=
  match rest with [] => [] | g :: t => gain T k pre g ++ acc_list T k (pre ++ [g]) t end.
Lemma acc_list_ok T k rest : forall pre c, In c (acc_list T k pre rest) -> accepted T k (pre ++ rest) c.
Proof.
  induction rest as [|g t IH]; intros pre c H; [destruct H|]. cbn in H. apply in_app_iff in H as [H|H].
  - exists pre, g, t. split; [reflexivity|exact H].
  - specialize (IH _ _ H). rewrite <- app_assoc in IH. exact IH.
Qed.
Lemma acc_list_ok0 T k tr c : In c (acc_list T k [] tr) -> accepted T k tr c.
Proof. exact (acc_list_ok T k tr [] c). Qed.
Definition en_env (l : list cert) : venv :=
  mkVenv 0 50 true true 0 100 [] [] true true (fun d => find (fun c => c_digest c =? d) en_gen) (fun d => find (fun c => c_digest c =? d) l) true 200 1.
Definition en_event (tr : list gev) (a : en_act) : gev :=
  match a with AEv g => g | ACheck k => GVote k (VCheck 0 (en_env (acc_list en_T k [] tr))) end.
Definition en_run (acts : list en_act) : list gev := fold_left (fun tr a => tr ++ [en_event tr a]) acts [].
Definition pair_eq_dec : forall a b : N * N, {a = b} + {a <> b}.
Proof. intros [a1 b1] [a2 b2]. destruct (N.eq_dec a1 a2), (N.eq_dec b1 b2); (left; congruence) || (right; congruence). Defined.
Definition header_eq_dec : forall a b : header, {a = b} + {a <> b}.
Proof. intros a b. decide equality; first [apply N.eq_dec|apply list_eq_dec; first [apply N.eq_dec|apply pair_eq_dec]]. Defined.
Definition realb (h : header) : bool :=
  (h_author h <? 1000) && (if header_eq_dec h (en_h (h_round h) (h_author h)) then true else false).
Lemma realb_ok h : realb h = true -> en_real h.
Proof.
  unfold realb. intros H. apply andb_true_iff in H as [H1 H2]. destruct (header_eq_dec h _) as [E|]; [|discriminate].
  exists (h_round h), (h_author h). split; [apply N.ltb_lt; exact H1|exact E].
Qed.
Definition signedb (k : N) (tr : list gev) (d : N) : bool :=
  existsb (fun h => h_digest h =? d) (n_out (voter en_T k tr) ++ p_sent (proposer en_T k tr)).
Lemma signedb_ok k tr d : signedb k tr d = true -> has_signed en_T k tr d.
Proof.
  unfold signedb. intros H. apply existsb_exists in H as (h & Hh & E). apply N.eqb_eq in E. exists h. split; [exact E|].
  apply in_app_iff in Hh. exact Hh.
Qed.
Definition unforgedb (k : N) (tr : list gev) (x : cert) : bool :=
  realb (c_header x) &&
  match aggregated_signature (c_state x) with
  | Some s => let keys := snd (signed_by x (bls_keys (com_at en_T k tr))) in
      negb (toy_averify (c_digest x) s keys) || forallb (fun j => memN j [4] || signedb j tr (c_digest x)) keys
  | None => true
  end.
Lemma unforgedb_ok k tr x : unforgedb k tr x = true -> unforged en_T en_real k tr x.
Proof.
  unfold unforgedb. intros H. apply andb_true_iff in H as [H1 H2]. split; [apply realb_ok; exact H1|].
  intros s A. rewrite A in H2. intros keys V j Hj Hh. unfold keys in *. change (nt_averify en_T) with toy_averify in V.
  cbv zeta in H2. rewrite V in H2. cbn [negb orb] in H2. rewrite forallb_forall in H2. specialize (H2 j Hj).
  apply orb_true_iff in H2 as [H2|H2]; [exfalso; apply Hh; apply memN_In; exact H2|apply signedb_ok; exact H2].
Qed.
Definition okb (tr : list gev) (a : en_act) : bool :=
  match a with
  | ACheck k => negb (memN k [4])
  | AEv (GVote k e) => negb (memN k [4]) &&
      match e with
      | VRequest p h _ _ => realb h && negb (p =? k + 100)
      | VNextEpoch _ _ | VCheck _ _ => false
      | _ => true end
  | AEv (GProp k e) => negb (memN k [4]) &&
      match e with PPropose _ _ | PStore _ _ | PPersistReq | PDb _ | PAck | PSendHdr => true | _ => false end &&
      forallb realb (p_sent (proposer en_T k (tr ++ [GProp k e])))
  | AEv (GCert k _ x) => negb (memN k [4]) && unforgedb k tr x
  | AEv (GFetch k _ l) => negb (memN k [4]) && forallb (unforgedb k tr) l
  | AEv (GOwn k h vs v) => negb (memN k [4]) && realb h &&
      forallb (fun w => match cm_authority (com_at en_T k tr) (v_author w) with
        | Some a => negb (toy_verify (v_digest w) (v_sig w) (a_key a)) || memN (a_key a) [4] || signedb (a_key a) tr (v_digest w)
        | None => true end) (vs ++ [v])
  end.
Lemma okb_ok tr a : okb tr a = true -> step_ok en_T en_real tr (en_event tr a).
Proof.
  assert (Hon : forall k, negb (memN k [4]) = true -> honest en_T k).
  { intros k H Hin. apply negb_true_iff, memN_nIn in H. exact (H Hin). }
  destruct a as [[k e|k e|k gc x|k gc l|k h vs v]|k]; unfold okb; cbn [en_event step_ok]; intros H.
  - apply andb_true_iff in H as [H1 H2]. split; [apply Hon; exact H1|]. destruct e; try exact I; try discriminate.
    apply andb_true_iff in H2 as [H2 H3]. split; [apply realb_ok; exact H2|]. apply negb_true_iff, N.eqb_neq in H3. exact H3.
  - apply andb_true_iff in H as [H H3]. apply andb_true_iff in H as [H1 H2]. split; [apply Hon; exact H1|]. split.
    + destruct e; try exact I; discriminate.
    + intros g Hg. rewrite forallb_forall in H3. apply realb_ok, H3, Hg.
  - apply andb_true_iff in H as [H1 H2]. split; [apply Hon; exact H1|apply unforgedb_ok; exact H2].
  - apply andb_true_iff in H as [H1 H2]. split; [apply Hon; exact H1|]. rewrite forallb_forall in H2. rewrite Forall_forall.
    intros x Hx. apply unforgedb_ok, H2, Hx.
  - apply andb_true_iff in H as [H H3]. apply andb_true_iff in H as [H1 H2]. split; [apply Hon; exact H1|].
    split; [apply realb_ok; exact H2|]. intros w a Hw Ha Hv Hh. rewrite forallb_forall in H3. specialize (H3 w Hw). rewrite Ha in H3.
    change (nt_verify en_T) with toy_verify in Hv. rewrite Hv in H3. cbn [negb orb] in H3.
    apply orb_true_iff in H3 as [H3|H3]; [exfalso; apply Hh; apply memN_In; exact H3|apply signedb_ok; exact H3].
  - split; [apply Hon; exact H|]. split.
    + intros d p E. cbn in E. apply find_some in E as [E1 E2]. apply N.eqb_eq in E2. split; [exact E2|].
      apply (acc_list_ok en_T k tr [] p E1).
    + intros d p E. unfold en_env, e_genesis in E. apply find_some in E as [E1 E2]. apply N.eqb_eq in E2. split; [exact E2|exact E1].
Qed.
Fixpoint all_okb (tr : list gev) (acts : list en_act) : bool :=
  match acts with [] => true | a :: t => okb tr a && all_okb (tr ++ [en_event tr a]) t end.
Lemma all_okb_ok acts : forall tr, execution en_T en_real tr -> all_okb tr acts = true ->
  execution en_T en_real (fold_left (fun tr a => tr ++ [en_event tr a]) acts tr).
Proof.
  induction acts as [|a acts IH]; intros tr X H; [exact X|]. cbn in H. apply andb_true_iff in H as [H1 H2]. cbn [fold_left]. apply IH; [|exact H2].
  intros pre g post E. destruct post as [|y post] using rev_ind.
  - apply app_inj_tail in E as [<- <-]. apply okb_ok. exact H1.
  - clear IHpost. rewrite app_comm_cons, app_assoc in E. apply app_inj_tail in E as [E _]. apply (X pre g post). exact E.
Qed.

Definition en_hgive (k r : N) : list en_act := map (fun e => AEv (GProp k e)) (Props_Prop.give (en_h r (k + 100))).
Definition en_vote (v : N) (h : header) : list en_act :=
  [AEv (GVote v (VRequest (h_author h) h [] true)); AEv (GVote v (VLock 0)); ACheck v] ++
  map (fun e => AEv (GVote v e)) [VRead 0 true; VDecide 0; VPersist 0; VDb true; VDb true; VAck 0].
Definition en_sig (d : N) (k : N) : vote := mkVote d 0 5 0 (k + 100) (d + k).
Definition en_signers (k v : N) : list N := filter (fun j => memN j [k; v; 4]) [1; 2; 3; 4].
Definition en_cert (r k v : N) : cert :=
  let d := en_dig r (k + 100) in
  mkCert (en_h r (k + 100)) (Unverified (sumN (map (fun j => d + j) (en_signers k v)))) (map (fun j => j - 1) (en_signers k v)).
(* validator k proposes round r, v votes for it, 4 sends a signature too, k assembles the certificate, the others receive it *)
Definition en_block (r : N) (kv : N * N) : list en_act :=
  let '(k, v) := kv in let h := en_h r (k + 100) in let d := h_digest h in
  en_hgive k r ++ en_vote v h ++ [AEv (GOwn k h [en_sig d k; en_sig d 4] (en_sig d v))] ++
  map (fun j => AEv (GCert j 0 (en_cert r k v))) (filter (fun j => negb (j =? k)) [1; 2; 3]).
Definition en_acts : list en_act :=
  flat_map (fun r => flat_map (en_block r) [(1, 2); (2, 3); (3, 1)]) [1; 2; 3] ++
  (* a fetched pair: a round-2 certificate with a made-up signature, vouched for by its round-3 child *)
  [AEv (GFetch 2 0 [mkCert (en_h 2 101) (Unverified 12345) [3]; en_cert 3 2 3]);
   (* and a forgery that is refused *)
   AEv (GCert 1 0 (mkCert (en_h 4 104) (Unverified 9) [0; 1; 3]))].
Definition en_tr : list gev := en_run en_acts.
Lemma en_exec : execution en_T en_real en_tr.
Proof.
  apply all_okb_ok.
  - intros pre g post E. destruct pre; discriminate.
  - vm_compute. reflexivity.
Qed.
Definition en_S : setting :=
  mkSetting N.sqrt (fun l _ => hd_error l) (fun v r g => v * 31 + r * 7 + g) (fun g => g) (fun e => e + 1) (fun e => 2 <=? e) (en_cm 5) 50 60 33.
Definition en_start : bstate := mkB 0 0 [] None [] (S_root en_S 5) table_default.
(* what validator 3 accepted, in that order, is what its consensus engine is fed *)
Notation en_fed := (acc_list en_T 3 [] en_tr).
Lemma en_counts : (N.of_nat (length (acc_list en_T 1 [] en_tr)), N.of_nat (length (acc_list en_T 2 [] en_tr)), N.of_nat (length en_fed)) = (9, 11, 9).
Proof. vm_compute. reflexivity. Qed.
Lemma en_fed_epoch : forallb (fun x => (c_epoch x =? 5) && (1 <=? c_round x)) en_fed = true.
Proof. vm_compute. reflexivity. Qed.
Lemma en_commits : option_map (fun r => (map sd_round (snd r), map (fun d => map h_digest (sd_headers d)) (snd r))) (feed_all en_S en_start en_fed)
  = Some ([2], [[1103; 1102; 1101; 2101]]).
Proof. vm_compute. reflexivity. Qed.
Lemma en_three : honest en_T 3.
Proof. intros [H|[]]. discriminate. Qed.
Lemma en_feed_gen tr : forallb (fun x => (c_epoch x =? 5) && (1 <=? c_round x)) (acc_list en_T 3 [] tr) = true ->
  forall x, In x (acc_list en_T 3 [] tr) -> certified_dag en_T 5 tr (c_header x).
Proof.
  intros B x Hx. rewrite forallb_forall in B. specialize (B x Hx). apply andb_true_iff in B as [B1 B2]. apply N.eqb_eq in B1. apply N.leb_le in B2.
  split; [exact B1|]. split; [exact B2|]. exists 3, x. split; [exact en_three|]. split; [|reflexivity].
  apply acc_list_ok0. exact Hx.
Qed.
Lemma en_node0 G : node en_S G en_start [].
Proof. apply r_start with (certs := []); [split; intros x []|]. vm_compute. reflexivity. Qed.
Lemma en_node_gen tr l : (forall x, In x l -> certified_dag en_T 5 tr (c_header x)) ->
  forall s c, feed_all en_S en_start l = Some (s, c) -> node en_S (certified_dag en_T 5 tr) s c.
Proof. intros G s c E. exact (feed_all_node en_S _ l en_start [] s c (en_node0 _) G E). Qed.
Example C47_example :
  network_ok en_T en_real /\ execution en_T en_real en_tr /\
  (N.of_nat (length (acc_list en_T 1 [] en_tr)), N.of_nat (length (acc_list en_T 2 [] en_tr)), N.of_nat (length en_fed)) = (9, 11, 9) /\
  exists s c, feed_all en_S en_start en_fed = Some (s, c) /\ node en_S (certified_dag en_T 5 en_tr) s c /\
    map sd_round c = [2] /\ map (fun d => map h_digest (sd_headers d)) c = [[1103; 1102; 1101; 2101]].
Proof.
  split; [exact en_ok|]. split; [exact en_exec|]. split; [exact en_counts|].
  pose proof (en_node_gen en_tr en_fed (en_feed_gen en_tr en_fed_epoch)) as G.
  pose proof en_commits as F. revert F G. generalize en_fed. intros l F G.
  destruct (feed_all en_S en_start l) as [[s c]|]; [|discriminate]. exists s, c. split; [reflexivity|]. split; [apply G; reflexivity|].
  cbn in F. injection F as F1 F2. split; assumption.
Qed.
