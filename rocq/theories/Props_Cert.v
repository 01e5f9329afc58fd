(* C03, C04, C05, C07: votes, certificates and quorums. *)
From Verif Require Import Util Types CommitteeModel CommitteeProofs CertModel CertProofs SlotProofs Props_Committee.
Local Open Scope N_scope.

(* Specification: the votes that should count are, per author, its first vote if it is for this header's digest, by a
   committee member, with a verifying signature. *)
Definition counted_votes (verify : N -> N -> N -> bool) (c : committee) (h : header) (vs : list vote) : list vote :=
  filter (fun v => (v_digest v =? h_digest h) &&
                   match cm_authority c (v_author v) with Some a => verify (v_digest v) (v_sig v) (a_key a) | None => false end)
         (first_votes [] vs).

(* C03, safety: a certificate returned after history `vs` and vote `v` *)
Theorem C03_certificate_needs_quorum :
  forall aggregate verify dsig c h vs v ct, built c ->
  snd (votes_append aggregate verify dsig c h (fst (votes_run aggregate verify dsig c h votes_agg_new vs)) v) = Ok (Some ct) ->
  let acc := counted_votes verify c h (vs ++ [v]) in
  NoDup (map v_author acc) /\
  (forall w, In w acc -> In w (vs ++ [v]) /\ v_digest w = h_digest h /\
     exists a, cm_authority c (v_author w) = Some a /\ verify (h_digest h) (v_sig w) (a_key a) = true) /\
  In v acc /\
  cm_quorum c <= N.of_nat (length acc) /\
  c_header ct = h /\
  fst (signed_by ct (bls_keys c)) = N.of_nat (length acc) /\
  StronglySorted N.lt (snd (signed_by ct (bls_keys c))) /\
  (forall k, In k (snd (signed_by ct (bls_keys c))) <->
     exists w a, In w acc /\ cm_authority c (v_author w) = Some a /\ a_key a = k) /\
  exists sig, c_state ct = VerifiedDirectly sig /\ aggregate (map snd (bm_of_list (keyed c (pairs acc)))) = Some sig.
Proof.
  exact (fun aggregate verify dsig c h vs v ct Hb E =>
    conj (accepted_NoDup verify c h (vs ++ [v]))
      (conj (accepted_good verify c h (vs ++ [v])) (votes_sound aggregate verify dsig c h vs v ct (built_wf c Hb) E))).
Qed.
Print Assumptions C03_certificate_needs_quorum.

(* C03, exactness: what every append returns, for every history *)
Theorem C03_append_outcome :
  forall aggregate verify dsig c h vs v, built c ->
  let o := snd (votes_append aggregate verify dsig c h (fst (votes_run aggregate verify dsig c h votes_agg_new vs)) v) in
  let acc := counted_votes verify c h (vs ++ [v]) in
  if memN (v_author v) (map v_author vs) then o = Err AuthorityReuse
  else if negb (v_digest v =? h_digest h) then o = Err InvalidHeaderDigest
  else match cm_authority c (v_author v) with
  | None => o = Err UnknownAuthority
  | Some a =>
    if negb (verify (v_digest v) (v_sig v) (a_key a)) then o = Err InvalidSignature
    else if cm_quorum c <=? N.of_nat (length acc) then
      o = match cert_new_unverified aggregate dsig c h (pairs acc) with
          | Err e => Err e
          | Ok ct => match aggregated_signature (c_state ct) with
                     | None => Err InvalidSignature
                     | Some sig => Ok (Some (set_state ct (VerifiedDirectly sig)))
                     end
          end
    else o = Ok None
  end.
Proof. exact (fun aggregate verify dsig c h vs v Hb => append_after aggregate verify dsig c h vs v (built_wf c Hb)). Qed.
Print Assumptions C03_append_outcome.

(* C03, liveness half: when the counted votes reach the quorum the certificate is returned *)
Theorem C03_quorum_gives_certificate :
  forall aggregate verify dsig c h vs v, built c ->
  ~ In (v_author v) (map v_author vs) ->
  In v (counted_votes verify c h (vs ++ [v])) ->
  cm_quorum c <= N.of_nat (length (counted_votes verify c h (vs ++ [v]))) ->
  (forall l, l <> [] -> aggregate l <> None) ->
  exists ct, snd (votes_append aggregate verify dsig c h (fst (votes_run aggregate verify dsig c h votes_agg_new vs)) v) = Ok (Some ct).
Proof.
  exact (fun aggregate verify dsig c h vs v Hb Hn Hin =>
    votes_complete aggregate verify dsig c h vs v (built_wf c Hb) Hn (proj2 (proj1 (filter_In _ _ _) Hin))).
Qed.
Print Assumptions C03_quorum_gives_certificate.

(* C04, round trip: the certificate built from a keyed set of votes *)
Theorem C04_bitmap_round_trip :
  forall aggregate dsig c h votes chk ct, built c -> bm_sorted votes ->
  cert_new_internal aggregate dsig c h votes chk = Ok ct ->
  c_header ct = h /\
  (forall k, In k (bm_keys votes) -> In k (bls_keys c)) /\
  signed_by ct (bls_keys c) = (N.of_nat (length votes), bm_keys votes) /\
  (chk = true -> cm_quorum c <= N.of_nat (length votes)) /\
  (match votes with [] => Some dsig | _ => aggregate (map snd votes) end) = aggregated_signature (c_state ct) /\
  (chk = true -> exists sig, c_state ct = Unverified sig) /\
  StronglySorted N.lt (c_signers ct).
Proof. exact (fun aggregate dsig c h votes chk ct Hb => new_internal_ok aggregate dsig c h votes chk ct (built_wf c Hb)). Qed.
Print Assumptions C04_bitmap_round_trip.

Theorem C04_unknown_voter_rejected :
  forall aggregate dsig c h votes chk, built c -> bm_sorted votes ->
  (exists k, In k (bm_keys votes) /\ ~ In k (bls_keys c)) ->
  cert_new_internal aggregate dsig c h votes chk = Err UnknownAuthority.
Proof. exact (fun aggregate dsig c h votes chk Hb => new_internal_unknown aggregate dsig c h votes chk (built_wf c Hb)). Qed.
Print Assumptions C04_unknown_voter_rejected.

(* C04, arbitrary bitmap received from a peer: weight = number of keys checked, and the keys are distinct committee keys *)
Theorem C04_weight_is_number_of_keys :
  forall ct keys, NoDup keys ->
  fst (signed_by ct keys) = N.of_nat (length (snd (signed_by ct keys))) /\
  NoDup (snd (signed_by ct keys)) /\ incl (snd (signed_by ct keys)) keys.
Proof.
  exact (fun ct keys Hn =>
    let W := walk_any 0 keys (c_signers ct) _ _ (surjective_pairing _) in
    conj (proj1 W) (conj (sublist_NoDup _ _ (proj2 W) Hn) (fun x => sublist_In _ _ x (proj2 W)))).
Qed.
Print Assumptions C04_weight_is_number_of_keys.

(* C04, exact decoding: position j of the bitmap selects the j-th committee key, positions beyond the committee select nobody *)
Theorem C04_bitmap_decoding :
  forall ct keys, StronglySorted N.lt (c_signers ct) ->
  snd (signed_by ct keys) =
  flat_map (fun j => match nth_error keys (N.to_nat (j - 0)) with Some k => [k] | None => [] end) (c_signers ct).
Proof. exact (fun ct keys Hs => walk_exact 0 keys (c_signers ct) Hs (fun j _ => N.le_0_l j)). Qed.
Print Assumptions C04_bitmap_decoding.

(* C05. certificates appended for one round: released ++ held = first certificate of each origin, in order *)
Theorem C05_nothing_lost_or_duplicated :
  forall c cs,
  released (snd (certs_run c certs_agg_new cs)) ++ ca_certs (fst (certs_run c certs_agg_new cs)) = first_certs [] cs /\
  NoDup (map c_origin (first_certs [] cs)) /\
  (forall x, In x cs -> exists y, In y (first_certs [] cs) /\ c_origin y = c_origin x).
Proof.
  exact certs_nothing_lost.
Qed.
Print Assumptions C05_nothing_lost_or_duplicated.

Theorem C05_release_iff_quorum :
  forall c cs x,
  snd (certs_append c (fst (certs_run c certs_agg_new cs)) x) =
  if memN (c_origin x) (map c_origin cs) then None
  else if cm_quorum c <=? group_power c (map c_origin (first_certs [] (cs ++ [x])))
       then Some (ca_certs (fst (certs_run c certs_agg_new cs)) ++ [x]) else None.
Proof. exact certs_append_exact. Qed.
Print Assumptions C05_release_iff_quorum.

(* The manager of all rounds: what is sent to the proposer when `ct` is appended after any history of appends and
   garbage collections is what the aggregator of ct's own round would release, where that round has seen exactly the
   certificates of that round appended since it was last collected. *)
Theorem C05_rounds_are_independent :
  forall c ops ct,
  let seen := round_certs (c_round ct) (rev ops) in
  snd (cam_step c (cam_state c ops []) (CamAppend ct)) =
  (if memN (c_origin ct) (map c_origin seen) then None
   else if cm_quorum c <=? group_power c (map c_origin (first_certs [] (seen ++ [ct])))
        then Some (ca_certs (fst (certs_run c certs_agg_new seen)) ++ [ct], c_round ct) else None).
Proof. exact cam_release_exact. Qed.
Print Assumptions C05_rounds_are_independent.

(* C07. Two certificates accepted for the same slot have the same header digest. *)
Theorem C07_one_certificate_per_slot :
  forall averify keys faulty (signed : N -> N -> Prop),
  NoDup keys -> keys <> [] ->
  N.of_nat (length faulty) <= (N.of_nat (length keys) - 1) / 3 ->
  (* unforgeability: an aggregate that verifies for a key list contains a signature of each honest key *)
  (forall d sig pks, averify d sig pks = true -> forall k, In k pks -> ~ In k faulty -> signed k d) ->
  forall ct1 ct2 ct1' ct2',
  verify_cert averify keys ct1 = Ok ct1' -> verify_cert averify keys ct2 = Ok ct2' ->
  c_origin ct1' = c_origin ct2' -> c_epoch ct1' = c_epoch ct2' -> c_round ct1' = c_round ct2' ->
  (* honest members sign at most one header per slot (C06, C29) *)
  (forall k h1 h2, ~ In k faulty -> signed k (h_digest h1) -> signed k (h_digest h2) ->
     h_author h1 = h_author h2 -> h_epoch h1 = h_epoch h2 -> h_round h1 = h_round h2 -> h_digest h1 = h_digest h2) ->
  c_digest ct1' = c_digest ct2'.
Proof.
  exact (fun averify keys faulty signed Hk Hne Hf Hunf ct1 ct2 ct1' ct2' V1 V2 Ho He Hr Hone =>
    slot_unique averify keys faulty signed Hk Hne Hf Hunf ct1' ct2'
      (proj1 (verify_cert_accepted averify keys ct1 ct1' V1)) (proj1 (verify_cert_accepted averify keys ct2 ct2' V2))
      (fun k Hh S1 S2 => Hone k (c_header ct1') (c_header ct2') Hh S1 S2 Ho He Hr)).
Qed.
Print Assumptions C07_one_certificate_per_slot.

Theorem C07_one_certificate_per_slot_received :
  forall averify genesis c faulty (signed : N -> N -> Prop),
  built c ->
  N.of_nat (length faulty) <= (N.of_nat (length (bls_keys c)) - 1) / 3 ->
  (forall d sig pks, averify d sig pks = true -> forall k, In k pks -> ~ In k faulty -> signed k d) ->
  forall r1 r2 ct1 ct2 ct1' ct2',
  (* both certificates came from the network: state reset, then validated *)
  validate_received r1 = Ok ct1 -> validate_and_verify averify genesis c ct1 = Ok ct1' ->
  validate_received r2 = Ok ct2 -> validate_and_verify averify genesis c ct2 = Ok ct2' ->
  c_round ct1' <> 0 ->
  c_origin ct1' = c_origin ct2' -> c_epoch ct1' = c_epoch ct2' -> c_round ct1' = c_round ct2' ->
  (forall k h1 h2, ~ In k faulty -> signed k (h_digest h1) -> signed k (h_digest h2) ->
     h_author h1 = h_author h2 -> h_epoch h1 = h_epoch h2 -> h_round h1 = h_round h2 -> h_digest h1 = h_digest h2) ->
  c_digest ct1' = c_digest ct2'.
Proof. exact slot_unique_received. Qed.
Print Assumptions C07_one_certificate_per_slot_received.

(* ---- non-vacuity: toy signatures (signature of k over d = d + k, aggregate = sum) ---- *)
Definition toy_agg (l : list N) : option N := Some (sumN l).
Definition toy_verify (d s k : N) : bool := s =? d + k.
Definition toy_averify (d s : N) (ks : list N) : bool := s =? sumN (map (fun k => d + k) ks).
Definition ex_c : committee := match build ex_idof 3 ex_entries with Some c => c | None => mkCommittee 0 [] [] 0 0 end.
Definition ex_h : header := mkHeader 8 4 3 100 [(77, 0)] [1;2;3;4;5] 0 0 9 1000.
(* voters 8(key 30) 16 (key 60) 39(20) 47(50) 70(10) 78(40) 86(70); a repeated author, a wrong digest and a stranger in between *)
Definition ex_vote (id key : N) : vote := mkVote 1000 4 3 8 id (1000 + key).
Definition ex_votes : list vote :=
  [ex_vote 70 10; ex_vote 39 20; ex_vote 70 10; mkVote 1001 4 3 8 16 1061; ex_vote 999 1; ex_vote 78 40; ex_vote 47 50].
Example C03_example :
  built ex_c /\
  (exists ct, snd (votes_append toy_agg toy_verify 0 ex_c ex_h (fst (votes_run toy_agg toy_verify 0 ex_c ex_h votes_agg_new ex_votes)) (ex_vote 86 70)) = Ok (Some ct) /\
     signed_by ct (bls_keys ex_c) = (5, [10; 20; 40; 50; 70])) /\
  snd (votes_run toy_agg toy_verify 0 ex_c ex_h votes_agg_new ex_votes) =
    [Ok None; Ok None; Err AuthorityReuse; Err InvalidHeaderDigest; Err UnknownAuthority; Ok None; Ok None].
Proof.
  split; [exists ex_idof, 3, ex_entries; vm_compute; reflexivity|]. split.
  - eexists. split; vm_compute; reflexivity.
  - vm_compute. reflexivity.
Qed.

Definition ex_cert : cert := mkCert ex_h (Unverified (1000 * 5 + 10 + 20 + 40 + 50 + 70)) [0; 1; 3; 4; 6].
Example C04_example :
  signed_by ex_cert (bls_keys ex_c) = (5, [10; 20; 40; 50; 70]) /\
  signed_by (mkCert ex_h (Unverified 0) [0; 1; 3; 4; 6; 9; 4000]) (bls_keys ex_c) = (5, [10; 20; 40; 50; 70]).
Proof. vm_compute. auto. Qed.

Example C07_example :
  exists ct', verify_cert toy_averify (bls_keys ex_c) ex_cert = Ok ct' /\ NoDup (bls_keys ex_c) /\ bls_keys ex_c <> [] /\
  (* two corrupted members are within the bound *)
  N.of_nat (length [10; 40]) <= (N.of_nat (length (bls_keys ex_c)) - 1) / 3 /\
  exists ct1, validate_received ex_cert = Ok ct1 /\ exists ct2, validate_and_verify toy_averify [] ex_c ct1 = Ok ct2.
Proof.
  eexists. split; [vm_compute; reflexivity|]. split.
  - apply wf_keys_NoDup, built_wf. exists ex_idof, 3, ex_entries. vm_compute. reflexivity.
  - split; [vm_compute; discriminate|]. split; [vm_compute; discriminate|].
    eexists. split; [vm_compute; reflexivity|]. eexists. vm_compute; reflexivity.
Qed.

Definition ex_c5 (o d : N) : cert := mkCert (mkHeader o 4 3 100 [] [] 0 0 9 d) (VerifiedDirectly 0) [].
Example C05_example :
  snd (certs_run ex_c certs_agg_new [ex_c5 8 1; ex_c5 16 2; ex_c5 8 3; ex_c5 39 4; ex_c5 47 5; ex_c5 70 6; ex_c5 78 7; ex_c5 16 8; ex_c5 86 9]) =
  [None; None; None; None; None; Some [ex_c5 8 1; ex_c5 16 2; ex_c5 39 4; ex_c5 47 5; ex_c5 70 6]; Some [ex_c5 78 7]; None; Some [ex_c5 86 9]].
Proof. vm_compute. reflexivity. Qed.
