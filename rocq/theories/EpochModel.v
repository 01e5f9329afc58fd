(* Model of epoch records: crates/types/src/primary/epoch.rs 21-165, crates/storage/src/epoch_records.rs 225-305, 997-1045,
   1240-1455, crates/node/src/manager/epoch_votes.rs 59-290, crates/node/src/manager/node/close_epoch.rs 783-840,
   crates/state-sync/src/epoch.rs 18-145.  Keys, digests and signatures are numbers; BLS is a parameter. *)
From Verif Require Import Util.

(* epoch.rs 21-40; final_state and the hash of final_consensus are opaque *)
Record erec := mk_erec {
  er_epoch : nat; er_com : list N; er_next : list N; er_parent : N; er_state : N; er_cnum : N; er_chash : N }.
(* epoch.rs 192-207; a bitmap iterates in ascending order without repetition *)
Record ecert := mk_ecert { ec_hash : N; ec_sig : N; ec_bits : list nat }.

Record eenv := mk_eenv {
  ee_dig : erec -> N;                      (* EpochRecord::digest, 43-47 *)
  ee_agg : list N -> option N;             (* BlsAggregateSignature::aggregate *)
  ee_ver : N -> list N -> N -> bool }.     (* verify_secure: digest, keys, aggregate signature *)

(* epoch.rs 66-80: the filter with its cursor; also how far the cursor got *)
Fixpoint walk (i : nat) (com : list N) (idx : list nat) : list N * nat :=
  match com with
  | [] => ([], 0)
  | k :: r =>
    match idx with
    | j :: idx' => if j =? i then let '(ks, n) := walk (S i) r idx' in (k :: ks, S n) else walk (S i) r idx
    | [] => walk (S i) r []
    end
  end.

(* epoch.rs 110-112 *)
Definition super_quorum (r : erec) : nat := length (er_com r) * 2 / 3 + 1.

(* epoch.rs 60-91 *)
Definition verify_with_cert (E : eenv) (r : erec) (c : ecert) : bool :=
  if negb (N.eqb (ee_dig E r) (ec_hash c)) then false
  else let '(ks, n) := walk 0 (er_com r) (ec_bits c) in
       if n <? super_quorum r then false else ee_ver E (ec_hash c) ks (ec_sig c).

(* collecting a Vec into a BTreeSet *)
Definition uniq (l : list N) : list N := nodup N.eq_dec l.
Definition subset (a b : list N) : bool := forallb (fun x => memN x b) a.

(* epoch.rs 145-164; expected is a set *)
Definition committee_compatible (r : erec) (expected : list N) : bool :=
  let committee := uniq (er_com r) in
  if negb (length committee =? length (er_com r)) then false
  else match Nat.compare (length (er_com r)) (length expected) with
       | Gt => false
       | Eq => subset committee expected && subset expected committee
       | Lt => (4 <=? length (er_com r)) && (length expected * 2 <=? length (er_com r) * 3) && subset committee expected
       end.

(* epoch_records.rs 284-301 *)
Inductive evalid := EValid | EInvalid (epoch_matches parents_match committee_valid cert_valid : bool) | ENoAnchor.
Definition validate_against_anchor (E : eenv) (epoch : nat) (r : erec) (c : ecert) (parent : N) (com : list N) : evalid :=
  let epoch_matches := er_epoch r =? epoch in
  let parents_match := N.eqb parent (er_parent r) in
  let committee_valid := committee_compatible r com in
  let cert_valid := verify_with_cert E r c in
  if epoch_matches && parents_match && committee_valid && cert_valid then EValid
  else EInvalid epoch_matches parents_match committee_valid cert_valid.

(* close_epoch.rs 783-840; DEFAULT_DIGEST is EpochDigest::default() *)
Definition DEFAULT_DIGEST : N := 0%N.
Definition build_epoch_record (E : eenv) (epoch : nat) (com next : list N) (prev : option erec) (state cnum chash : N) : option erec :=
  match (if epoch =? 0 then Some DEFAULT_DIGEST else match prev with Some p => Some (ee_dig E p) | None => None end) with
  | None => None
  | Some parent =>
    let r := mk_erec epoch com next parent state cnum chash in
    match prev with
    | Some p => if committee_compatible r (uniq (er_next p)) then Some r else None
    | None => Some r
    end
  end.

(* ---------- the database actor's state, Inner (1050-1075), over the index and pack of C24-C26; start_epoch is 0 ---------- *)
Record edb := mk_edb { db_recs : list erec; db_certs : list (N * ecert); db_dummy : option erec; db_mark : nat }.
Definition edb_new : edb := mk_edb [] [] None 0.
Fixpoint cget (l : list (N * ecert)) (d : N) : option ecert :=
  match l with [] => None | (d', c) :: r => if N.eqb d' d then Some c else cget r d end.

(* 1222-1231 *)
Definition db_save_dummy (s : edb) (r : erec) : bool * edb :=
  if er_epoch r =? 0 then (true, mk_edb (db_recs s) (db_certs s) (Some r) (db_mark s)) else (false, s).
(* 1235-1262; w: whether the appends succeed *)
Definition db_save_record (w : bool) (s : edb) (r : erec) : bool * edb :=
  if er_epoch r <? length (db_recs s) then (true, s)
  else if negb (er_epoch r =? length (db_recs s)) then (false, s)
  else if w then (true, mk_edb (db_recs s ++ [r]) (db_certs s) (db_dummy s) (db_mark s)) else (false, s).
(* 1288-1303 *)
Definition db_save_cert (w : bool) (s : edb) (d : N) (c : ecert) : bool * edb :=
  match cget (db_certs s) d with
  | Some _ => (true, s)
  | None => if w then (true, mk_edb (db_recs s) ((d, c) :: db_certs s) (db_dummy s) (db_mark s)) else (false, s)
  end.
(* 1267-1284 *)
Definition db_save (E : eenv) (w1 w2 : bool) (s : edb) (r : erec) (c : ecert) : bool * edb :=
  match db_save_record w1 s r with
  | (false, s1) => (false, s1)
  | (true, s1) => db_save_cert w2 s1 (ee_dig E r) c
  end.
(* 1318-1328 *)
Definition record_by_epoch (s : edb) (e : nat) : option erec :=
  match e, db_recs s with 0, [] => db_dummy s | _, _ => nth_error (db_recs s) e end.
(* 1367-1374 *)
Definition latest_record (s : edb) : option erec :=
  match db_recs s with [] => db_dummy s | _ => record_by_epoch s (length (db_recs s) - 1) end.
(* 156-168 EpochByNumber *)
Definition epoch_by_number (E : eenv) (s : edb) (e : nat) : option (erec * option ecert) :=
  match record_by_epoch s e with Some r => Some (r, cget (db_certs s) (ee_dig E r)) | None => None end.
(* 613-630 *)
Inductive cre := CMissingRecord | CMissingCert (d : N) | CInvalidCert (d : N).
Definition certified_record (E : eenv) (s : edb) (e : nat) : erec + cre :=
  match record_by_epoch s e with
  | None => inr CMissingRecord
  | Some r => match cget (db_certs s) (ee_dig E r) with
              | None => inr (CMissingCert (ee_dig E r))
              | Some c => if verify_with_cert E r c then inl r else inr (CInvalidCert (ee_dig E r))
              end
  end.
(* 1380-1383 *)
Definition epoch_certified (E : eenv) (s : edb) (e : nat) : bool :=
  match record_by_epoch s e with
  | Some r => match cget (db_certs s) (ee_dig E r) with Some _ => true | None => false end
  | None => false
  end.
(* 1397-1404: find over resume..tip *)
Fixpoint find_from (f : nat -> bool) (a n : nat) : option nat :=
  match n with 0 => None | S n' => if f a then Some a else find_from f (S a) n' end.
Definition first_missing (E : eenv) (s : edb) (tip : nat) : option nat * edb :=
  let m := match find_from (fun e => negb (epoch_certified E s e)) (db_mark s) (tip - db_mark s) with Some e => e | None => tip end in
  ((if m <? tip then Some m else None),
   mk_edb (db_recs s) (db_certs s) (db_dummy s) (Nat.max (db_mark s) m)).
(* 1410-1415, at the end of open *)
Definition seed_mark (E : eenv) (s : edb) : edb :=
  snd (first_missing E (mk_edb (db_recs s) (db_certs s) None 0) (length (db_recs s))).

(* 840-855 *)
Definition committee_keys (s : edb) (e : nat) : option (list N) :=
  match record_by_epoch s e with
  | Some r => Some (uniq (er_com r))
  | None => if 0 <? e then match record_by_epoch s (e - 1) with Some r => Some (uniq (er_next r)) | None => None end else None
  end.
(* 1038-1062 *)
Definition validate_downloaded (E : eenv) (s : edb) (e : nat) (r : erec) (c : ecert) : evalid :=
  match (if e =? 0 then match committee_keys s 0 with Some k => Some (DEFAULT_DIGEST, k) | None => None end
         else match record_by_epoch s (e - 1) with Some p => Some (ee_dig E p, uniq (er_next p)) | None => None end) with
  | Some (parent, com) => validate_against_anchor E e r c parent com
  | None => ENoAnchor
  end.

(* one download, as both the collector (epoch.rs 50-75) and the recovery (epoch_votes.rs 218-250) do it *)
Definition ingest (E : eenv) (s : edb) (e : nat) (r : erec) (c : ecert) (w1 w2 : bool) : edb :=
  match validate_downloaded E s e r c with
  | EValid => snd (db_save E w1 w2 s r c)
  | _ => s
  end.

(* ---------- votes: epoch_votes.rs 59-205 ---------- *)
Record vote := mk_vote { v_epoch : nat; v_hash : N; v_key : N; v_sig : N }.
Inductive vev := VVote (v : vote) | VTimeout | VClosed.
Record vst := mk_vst { vs_left : list N; vs_bits : list nat; vs_sigs : list N; vs_reached : bool; vs_tmo : nat; vs_alt : list (N * nat) }.

(* 67-68: the HashMap keeps the last index of a repeated key *)
Fixpoint last_index (i : nat) (com : list N) (k : N) : option nat :=
  match com with
  | [] => None
  | x :: r => match last_index (S i) r k with Some j => Some j | None => if N.eqb x k then Some i else None end
  end.
Fixpoint ins (x : nat) (l : list nat) : list nat :=
  match l with [] => [x] | y :: r => if x <? y then x :: l else if x =? y then l else y :: ins x r end.
Definition has (x : nat) (l : list nat) : bool := existsb (Nat.eqb x) l.
Definition remN (x : N) (l : list N) : list N := filter (fun y => negb (N.eqb y x)) l.
(* 82-85, 116-120 *)
Definition put (com : list N) (k s : N) (bits : list nat) (sigs : list N) : list nat * list N :=
  match last_index 0 com k with
  | Some i => if has i bits then (bits, sigs) else (ins i bits, sigs ++ [s])
  | None => (bits, sigs)
  end.
Fixpoint alt_bump (l : list (N * nat)) (d : N) : list (N * nat) * nat :=
  match l with
  | [] => ([(d, 1)], 1)
  | (d', n) :: r => if N.eqb d' d then ((d', S n) :: r, S n) else let '(r', m) := alt_bump r d in ((d', n) :: r', m)
  end.
Definition MAX_TIMEOUTS := 24.

(* 66-92: before the loop; me: our key and our signature of the record *)
Definition vstart (r : erec) (me : N) (mysig : N) : vst :=
  if memN me (er_com r)
  then let '(b, g) := put (er_com r) me mysig [] [] in mk_vst (remN me (er_com r)) b g false 0 []
  else mk_vst (er_com r) [] [] false 0 [].
(* 101-170: one turn; true when the loop ends *)
Definition vturn (E : eenv) (r : erec) (s : vst) (e : vev) : vst * bool :=
  match e with
  | VClosed => (s, true)
  | VTimeout =>
      if vs_reached s || (MAX_TIMEOUTS <? vs_tmo s) then (s, true)
      else (mk_vst (vs_left s) (vs_bits s) (vs_sigs s) (vs_reached s) (S (vs_tmo s)) (vs_alt s), false)
  | VVote v =>
      if negb (v_epoch v =? er_epoch r) then (s, false)
      else if N.eqb (v_hash v) (ee_dig E r) && memN (v_key v) (vs_left s)
      then let '(b, g) := put (er_com r) (v_key v) (v_sig v) (vs_bits s) (vs_sigs s) in
           let reached := vs_reached s || (super_quorum r <=? length b) in
           (mk_vst (remN (v_key v) (vs_left s)) b g reached (vs_tmo s) (vs_alt s), length (er_com r) <=? length b)
      else if negb (N.eqb (v_hash v) (ee_dig E r)) && memN (v_key v) (vs_left s)
      then let '(a, n) := alt_bump (vs_alt s) (v_hash v) in
           (mk_vst (remN (v_key v) (vs_left s)) (vs_bits s) (vs_sigs s) (vs_reached s) (vs_tmo s) a, super_quorum r <=? n)
      else (s, false)
  end.
Fixpoint vloop (E : eenv) (r : erec) (s : vst) (evs : list vev) : vst * bool :=
  match evs with
  | [] => (s, false)
  | e :: rest => match vturn E r s e with (s1, true) => (s1, true) | (s1, false) => vloop E r s1 rest end
  end.
(* 173-186: the certificate saved at the end, if any *)
Definition vfinish (E : eenv) (r : erec) (s : vst) : option ecert :=
  if vs_reached s
  then match ee_agg E (vs_sigs s) with
       | Some a => let c := mk_ecert (ee_dig E r) a (vs_bits s) in if verify_with_cert E r c then Some c else None
       | None => None
       end
  else None.
