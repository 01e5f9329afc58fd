(* Model of certificate construction and verification (crates/types/src/primary/certificate.rs), the vote
   aggregator (crates/consensus/primary/src/aggregators/votes.rs) and the per-round certificate aggregator
   (crates/consensus/primary/src/aggregators/certificates.rs). *)
From Verif Require Import Util Types CommitteeModel.
Local Open Scope N_scope.

Inductive dag_err :=
| AuthorityReuse | InvalidHeaderDigest | InvalidSignature | UnknownAuthority | CertificateRequiresQuorum
| InvalidEpoch | TooManyParents | TooManyBatches | UnknownWorkerId | Inquorate | UnsignedCert
| RecoverBlsSignature | InvalidBitmap.

(* ---------- certificate.rs 96-158 `new_internal`: walk the committee in key order, popping the first remaining vote when
   its key matches. `votes` is a BTreeMap (sorted, one entry per key), so the inner "repeats" loop (118-124) pops
   nothing and is omitted. Result: bitmap positions, collected votes, remaining votes, weight. *)
Fixpoint fill_bitmap (i : N) (auths : bmap authority) (votes : bmap N)
  : list N * list (N * N) * bmap N * N :=
  match auths with
  | [] => ([], [], votes, 0)
  | (key, _) :: auths' =>
    match votes with
    | (vk, vs) :: votes' =>
      if key =? vk then
        let '(bits, sigs, rest, w) := fill_bitmap (i + 1) auths' votes' in
        (i :: bits, (vk, vs) :: sigs, rest, EQUAL_VOTING_POWER + w)
      else fill_bitmap (i + 1) auths' votes
    | [] => fill_bitmap (i + 1) auths' votes
    end
  end.

Section Crypto.
(* `BlsAggregateSignature::aggregate` (None = error), `BlsSignature::verify_secure` of one vote,
   `BlsAggregateSignature::verify_secure` of a certificate: external functions. *)
Variable aggregate : list N -> option N.
Variable verify : N -> N -> N -> bool.            (* digest, signature, key *)
Variable averify : N -> N -> list N -> bool.      (* digest, aggregate signature, keys *)

(* certificate.rs 96-158. `default_sig` stands for BlsSignature::default() (no vote at all). *)
Definition cert_new_internal (default_sig : N) (c : committee) (h : header) (votes : bmap N) (check_stake : bool)
  : result cert dag_err :=
  (* 105-106: the committee's authorities re-collected in a BTreeMap by key = cm_auths *)
  let '(bits, sigs, rest, w) := fill_bitmap 0 (cm_auths c) votes in
  match rest with
  | _ :: _ => Err UnknownAuthority
  | [] =>
    if check_stake && negb (cm_quorum c <=? w) then Err CertificateRequiresQuorum
    else
      match (match sigs with [] => Some default_sig | _ => aggregate (map snd sigs) end) with
      | None => Err InvalidSignature
      | Some agg =>
        Ok (mkCert h (if check_stake then Unverified agg else Unsigned agg) bits)
      end
  end.

(* certificate.rs 62-76: votes by identifier are turned into votes by key (non-members dropped), then collected *)
Definition votes_by_key (c : committee) (votes : list (N * N)) : bmap N :=
  bm_of_list (flat_map (fun '(id, sig) =>
     match cm_authority c id with Some a => [(a_key a, sig)] | None => [] end) votes).
Definition cert_new_unverified (default_sig : N) (c : committee) (h : header) (votes : list (N * N)) :=
  cert_new_internal default_sig c h (votes_by_key c votes) true.

(* certificate.rs 329-337 `aggregated_signature` *)
Definition aggregated_signature (s : sigstate) : option N :=
  match s with
  | VerifiedDirectly sig | Unverified sig | VerifiedIndirectly sig | Unsigned sig => Some sig
  | Genesis => None
  end.

Definition set_state (c : cert) (s : sigstate) : cert := mkCert (c_header c) s (c_signers c).

(* certificate.rs 357-364 `is_verified` *)
Definition is_verified (c : cert) : bool :=
  match c_state c with VerifiedDirectly _ | VerifiedIndirectly _ | Genesis => true | _ => false end.

(* certificate.rs 177-200 `signed_by`: `auth_iter` is the pointer into the bitmap, i.e. the not yet consumed positions *)
Fixpoint signed_by_walk (i : N) (keys : list N) (idx : list N) : N * list N :=
  match keys with
  | [] => (0, [])
  | k :: keys' =>
    match idx with
    | j :: idx' =>
      if j =? i then let '(w, pks) := signed_by_walk (i + 1) keys' idx' in (1 + w, k :: pks)
      else signed_by_walk (i + 1) keys' idx
    | [] => signed_by_walk (i + 1) keys' idx
    end
  end.
Definition signed_by (ct : cert) (keys : list N) : N * list N := signed_by_walk 0 keys (c_signers ct).

(* crates/types/src/primary/header.rs 123-170 `Header::validate`; constant from types/src/primary/mod.rs 71 *)
Definition MAX_HEADER_NUM_OF_BATCHES : N := 10.
Definition header_validate (h : header) (c : committee) : result unit dag_err :=
  if negb (h_epoch h =? cm_epoch c) then Err InvalidEpoch
  else if cm_size c <? N.of_nat (length (h_parents h)) then Err TooManyParents
  else if MAX_HEADER_NUM_OF_BATCHES <? N.of_nat (length (h_payload h)) then Err TooManyBatches
  else match cm_authority c (h_author h) with
  | None => Err UnknownAuthority
  | Some _ =>
    if forallb (fun p => snd p <? number_of_workers c) (h_payload h) then Ok tt else Err UnknownWorkerId
  end.

(* certificate.rs 269-292 `verify_signature` *)
Definition verify_signature (ct : cert) (pks : list N) : result cert dag_err :=
  match c_state ct with
  | VerifiedIndirectly _ | VerifiedDirectly _ | Genesis => Ok ct
  | Unsigned _ => Err UnsignedCert
  | Unverified sig =>
    if averify (c_digest ct) sig pks then Ok (set_state ct (VerifiedDirectly sig)) else Err InvalidSignature
  end.

(* certificate.rs 295-301 `validate_received` (and 462-471 `validate_fetched_certificate`) *)
Definition validate_received (ct : cert) : result cert dag_err :=
  match aggregated_signature (c_state ct) with
  | Some sig => Ok (set_state ct (Unverified sig))
  | None => Err RecoverBlsSignature
  end.

(* certificate.rs 225-251 `validate_and_verify`. `genesis` = the genesis certificates of the committee (certificate.rs 47-59):
   membership is `Certificate == Certificate` (certificate.rs 495-503), i.e. equality of digest, round, epoch and origin. *)
Definition cert_eqb (a b : cert) : bool :=
  (c_digest a =? c_digest b) && (c_round a =? c_round b) && (c_epoch a =? c_epoch b) && (c_origin a =? c_origin b).
Definition validate_and_verify (genesis : list cert) (c : committee) (ct : cert) : result cert dag_err :=
  if negb (c_epoch ct =? cm_epoch c) then Err InvalidEpoch
  else if (c_round ct =? 0) && existsb (fun g => cert_eqb g ct) genesis then Ok ct
  else match header_validate (c_header ct) c with
  | Err e => Err e
  | Ok _ =>
    let '(w, pks) := signed_by ct (bls_keys c) in
    if cm_quorum c <=? w then verify_signature ct pks else Err Inquorate
  end.

(* certificate.rs 255-266 `verify_cert` *)
Definition verify_cert (keys : list N) (ct : cert) : result cert dag_err :=
  match validate_received ct with
  | Err e => Err e
  | Ok ct' =>
    let '(w, pks) := signed_by ct' keys in
    if quorum_threshold_n (N.of_nat (length keys)) <=? w then verify_signature ct' pks else Err Inquorate
  end.

(* ---------- votes.rs 13-29 `VotesAggregator` *)
Record votes_agg := mkVotesAgg {
  va_weight : N;
  va_votes : list (N * N);      (* (voter, signature), oldest first *)
  va_seen : list N
}.
Definition votes_agg_new : votes_agg := mkVotesAgg 0 [] [].

(* votes.rs 35-92 `append` *)
Definition votes_append (dsig : N) (c : committee) (h : header) (s : votes_agg) (v : vote)
  : votes_agg * result (option cert) dag_err :=
  if memN (v_author v) (va_seen s) then (s, Err AuthorityReuse)
  else
    let s1 := mkVotesAgg (va_weight s) (va_votes s) (v_author v :: va_seen s) in
    if negb (v_digest v =? h_digest h) then (s1, Err InvalidHeaderDigest)
    else match cm_authority c (v_author v) with
    | None => (s1, Err UnknownAuthority)
    | Some a =>
      if negb (verify (v_digest v) (v_sig v) (a_key a)) then (s1, Err InvalidSignature)
      else
        let s2 := mkVotesAgg (va_weight s + voting_power_by_id c (v_author v))
                             (va_votes s ++ [(v_author v, v_sig v)]) (va_seen s1) in
        if cm_quorum c <=? va_weight s2 then
          match cert_new_unverified dsig c h (va_votes s2) with
          | Err e => (s2, Err e)
          | Ok ct =>
            match aggregated_signature (c_state ct) with
            | None => (s2, Err InvalidSignature)
            | Some sig => (s2, Ok (Some (set_state ct (VerifiedDirectly sig))))
            end
          end
        else (s2, Ok None)
    end.

(* the outputs of a whole sequence of appends *)
Fixpoint votes_run (dsig : N) (c : committee) (h : header) (s : votes_agg) (vs : list vote)
  : votes_agg * list (result (option cert) dag_err) :=
  match vs with
  | [] => (s, [])
  | v :: vs' =>
    let '(s1, o) := votes_append dsig c h s v in
    let '(s2, os) := votes_run dsig c h s1 vs' in (s2, o :: os)
  end.
End Crypto.

(* ---------- certificates.rs 53-105 `CertificatesAggregator` *)
Record certs_agg := mkCertsAgg { ca_weight : N; ca_certs : list cert; ca_seen : list N }.
Definition certs_agg_new : certs_agg := mkCertsAgg 0 [] [].

(* certificates.rs 72-104 `append` *)
Definition certs_append (c : committee) (s : certs_agg) (ct : cert) : certs_agg * option (list cert) :=
  if memN (c_origin ct) (ca_seen s) then (s, None)
  else
    let certs := ca_certs s ++ [ct] in
    let w := ca_weight s + voting_power_by_id c (c_origin ct) in
    let seen := c_origin ct :: ca_seen s in
    if cm_quorum c <=? w then (mkCertsAgg w [] seen, Some certs)
    else (mkCertsAgg w certs seen, None).

(* certificates.rs 10-50 manager: one aggregator per round, dropped by gc; output = what is sent to the proposer *)
Definition cam := bmap certs_agg.
Definition cam_get (m : cam) (r : N) : certs_agg := match bm_lookup r m with Some a => a | None => certs_agg_new end.
Definition cam_append (c : committee) (m : cam) (ct : cert) : cam * option (list cert * N) :=
  let '(a, o) := certs_append c (cam_get m (c_round ct)) ct in
  (bm_insert (c_round ct) a m, match o with Some l => Some (l, c_round ct) | None => None end).
Definition cam_gc (m : cam) (gc : N) : cam := filter (fun kv => gc <? fst kv) m.

(* the manager over a whole history; outputs are the messages sent to the proposer, one entry per operation *)
Inductive cam_op := CamAppend (ct : cert) | CamGc (gc : N).
Definition cam_step (c : committee) (m : cam) (o : cam_op) : cam * option (list cert * N) :=
  match o with
  | CamAppend ct => cam_append c m ct
  | CamGc gc => (cam_gc m gc, None)
  end.
Fixpoint cam_state (c : committee) (ops : list cam_op) (m : cam) : cam :=
  match ops with [] => m | o :: t => cam_state c t (fst (cam_step c m o)) end.
