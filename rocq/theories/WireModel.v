(** Byte encodings: BCS (the encoding behind tn_types::encode / try_decode), the header, batch and epoch
    record wire formats, every digest preimage and every signed message (C45).

    Bytes are numbers below 256.  Fixed-size arrays are byte lists of that length.  The BCS rules used:
    integers little endian, lengths ULEB128 (canonical, at most 2^31-1), structs and tuples are
    concatenations, maps are sorted by key; they are checked against the golden vectors of the source
    (Props_Wire.v). *)
From Verif Require Import Util.
Local Open Scope N_scope.

Definition bytes := list N.

(* ---------- BCS ---------- *)
(** Unsigned integers, [k] bytes little endian; and big endian ([to_be_bytes]). *)
Fixpoint le (k : nat) (n : N) : bytes := match k with O => [] | S k' => n mod 256 :: le k' (n / 256) end.
Definition be (k : nat) (n : N) : bytes := rev (le k n).

(** bcs ser [write_u32_as_uleb128]: [fuel] = 4 continuation bytes are enough for 32 bits. *)
Fixpoint uleb_f (fuel : nat) (n : N) : bytes :=
  match fuel with
  | O => [n]
  | S f => if n <? 128 then [n] else (n mod 128 + 128) :: uleb_f f (n / 128)
  end.
Definition uleb (n : N) : bytes := uleb_f 4 n.

Definition parser (A : Type) := bytes -> option (A * bytes).
Definition ret {A} (x : A) : parser A := fun bs => Some (x, bs).
Definition bind {A B} (p : parser A) (f : A -> parser B) : parser B :=
  fun bs => match p bs with Some (x, r) => f x r | None => None end.
Notation "x <- p ;; q" := (bind p (fun x => q)) (at level 61, p at next level, right associativity).
Definition failp {A} : parser A := fun _ => None.

(** Next [k] raw bytes. *)
Definition take (k : nat) : parser bytes :=
  fun bs => if Nat.leb k (length bs) then Some (firstn k bs, skipn k bs) else None.
Fixpoint unle (bs : bytes) : N := match bs with [] => 0 | b :: t => b + 256 * unle t end.
Definition get_int (k : nat) : parser N := bs <- take k ;; ret (unle bs).

(** bcs de [parse_u32_from_uleb128]: at most five digits, the last one non-zero, below 2^32. *)
Fixpoint get_uleb_f (fuel : nat) (shift acc : N) (bs : bytes) : option (N * bytes) :=
  match fuel, bs with
  | S f, b :: t =>
      let digit := b mod 128 in
      let acc' := acc + digit * 2 ^ shift in
      if b <? 128
      then if (0 <? shift) && (digit =? 0) then None else if acc' <? 2 ^ 32 then Some (acc', t) else None
      else get_uleb_f f (shift + 7) acc' t
  | _, _ => None
  end.
Definition get_uleb : parser N := get_uleb_f 5 0 0.
(** bcs de [parse_length]: MAX_SEQUENCE_LENGTH is 2^31 - 1. *)
Definition get_len : parser N := n <- get_uleb ;; if n <=? 2 ^ 31 - 1 then ret n else failp.

(** [serialize_bytes] / [deserialize_bytes] with a fixed expected size (Digest, B256, Address, BLS key
    and signature: types/src/crypto/mod.rs 38-100, bls_signature.rs 291-345, bls_public_key.rs 230-300).
    Simplified: the curve checks of keys and signatures are left out (they only reject more). *)
Definition put_fixed (b : bytes) : bytes := uleb (N.of_nat (length b)) ++ b.
Definition get_fixed (k : nat) : parser bytes :=
  n <- get_len ;; if n =? N.of_nat k then take k else failp.
(** A Vec<u8> of any length. *)
Definition get_vec : parser bytes := n <- get_len ;; take (N.to_nat n).

(** Sequences. *)
Definition put_seq {A} (put : A -> bytes) (l : list A) : bytes := uleb (N.of_nat (length l)) ++ concat (map put l).
Fixpoint get_many {A} (k : nat) (p : parser A) : parser (list A) :=
  match k with O => ret [] | S k' => x <- p ;; t <- get_many k' p ;; ret (x :: t) end.
Definition get_seq {A} (p : parser A) : parser (list A) := n <- get_len ;; get_many (N.to_nat n) p.

(** bcs::from_bytes: all input must be used. *)
Definition from_bytes {A} (p : parser A) (bs : bytes) : option A :=
  match p bs with Some (x, []) => Some x | _ => None end.

(** Order of byte arrays (derived Ord). *)
Fixpoint blt (a b : bytes) : bool :=
  match a, b with
  | _, [] => false
  | [], _ :: _ => true
  | x :: a', y :: b' => (x <? y) || ((x =? y) && blt a' b')
  end.
Definition beqb (a b : bytes) : bool := if list_eq_dec N.eq_dec a b then true else false.

(* ---------- headers ---------- *)
(** types/src/primary/header.rs 19-58 [HeaderInner].  [w_payload]: an insertion-ordered map. *)
Record header := { w_author : bytes; w_round : N; w_epoch : N; w_created : N; w_payload : list (bytes * N);
                   w_parents : list bytes; w_enum : N; w_ehash : bytes; w_seed : bytes }.

Section Fork.
Variable active : N -> bool.               (* forks.rs 235 seed_signature_active *)
Definition zero_sig : bytes := repeat 0 48. (* stands for BlsSignature::default() *)

(** header.rs 245-270 [HeaderRef::serialize]. *)
Definition put_header (h : header) : bytes :=
  w_author h ++ le 4 (w_round h) ++ le 4 (w_epoch h) ++ le 8 (w_created h) ++
  put_seq (fun p => put_fixed (fst p) ++ le 2 (snd p)) (w_payload h) ++
  put_seq put_fixed (w_parents h) ++ le 8 (w_enum h) ++ put_fixed (w_ehash h) ++
  (if active (w_epoch h) then put_fixed (w_seed h) else []).

(** indexmap serde_seq: insert one after the other; a repeated key keeps its place and takes the
    new value. *)
Fixpoint imap_insert (k : bytes) (v : N) (m : list (bytes * N)) : list (bytes * N) :=
  match m with [] => [(k, v)] | (k', v') :: t => if beqb k k' then (k, v) :: t else (k', v') :: imap_insert k v t end.
Definition imap_of (l : list (bytes * N)) : list (bytes * N) := fold_left (fun m p => imap_insert (fst p) (snd p) m) l [].
(** BTreeSet from a sequence. *)
Fixpoint bset_insert (k : bytes) (s : list bytes) : list bytes :=
  match s with [] => [k] | k' :: t => if blt k k' then k :: s else if beqb k k' then s else k' :: bset_insert k t end.
Definition bset_of (l : list bytes) : list bytes := fold_left (fun s k => bset_insert k s) l [].

(** header.rs 316-370 [Header::deserialize]. *)
Definition get_header : parser header :=
  author <- take 32 ;; round <- get_int 4 ;; epoch <- get_int 4 ;; created <- get_int 8 ;;
  payload <- get_seq (d <- get_fixed 32 ;; w <- get_int 2 ;; ret (d, w)) ;;
  parents <- get_seq (get_fixed 32) ;; en <- get_int 8 ;; eh <- get_fixed 32 ;;
  seed <- (if active epoch then get_fixed 48 else ret zero_sig) ;;
  ret {| w_author := author; w_round := round; w_epoch := epoch; w_created := created; w_payload := imap_of payload;
         w_parents := bset_of parents; w_enum := en; w_ehash := eh; w_seed := seed |}.
End Fork.

(* ---------- batches ---------- *)
(** types/src/worker/sealed_batch.rs 61-95 [Batch] without the unserialized [received_at]. *)
Record batch := { b_txs : list bytes; b_epoch : N; b_benef : bytes; b_fee : N; b_worker : N }.
Definition put_batch (b : batch) : bytes :=
  put_seq put_fixed (b_txs b) ++ le 4 (b_epoch b) ++ put_fixed (b_benef b) ++ le 8 (b_fee b) ++ le 2 (b_worker b).
Definition get_batch : parser batch :=
  txs <- get_seq get_vec ;; e <- get_int 4 ;; a <- get_fixed 20 ;; f <- get_int 8 ;; w <- get_int 2 ;;
  ret {| b_txs := txs; b_epoch := e; b_benef := a; b_fee := f; b_worker := w |}.

(* ---------- epoch records ---------- *)
(** types/src/primary/epoch.rs 21-40 [EpochRecord]. *)
Record erec := { r_epoch : N; r_comm : list bytes; r_next : list bytes; r_parent : bytes;
                 r_snum : N; r_shash : bytes; r_cnum : N; r_chash : bytes }.
Definition put_erec (r : erec) : bytes :=
  le 4 (r_epoch r) ++ put_seq put_fixed (r_comm r) ++ put_seq put_fixed (r_next r) ++ put_fixed (r_parent r) ++
  le 8 (r_snum r) ++ put_fixed (r_shash r) ++ le 8 (r_cnum r) ++ put_fixed (r_chash r).
Definition get_erec : parser erec :=
  e <- get_int 4 ;; c <- get_seq (get_fixed 96) ;; n <- get_seq (get_fixed 96) ;; p <- get_fixed 32 ;;
  sn <- get_int 8 ;; sh <- get_fixed 32 ;; cn <- get_int 8 ;; ch <- get_fixed 32 ;;
  ret {| r_epoch := e; r_comm := c; r_next := n; r_parent := p; r_snum := sn; r_shash := sh; r_cnum := cn; r_chash := ch |}.

(* ---------- node records ---------- *)
(** network-libp2p/src/types.rs 970-986 [NetworkInfo]: network key (its protobuf bytes), addresses (their
    bytes), timestamp, optional RPC endpoints (types/src/committee.rs 30-41: http, optional ws).
    Simplified: the contents of keys, addresses and URLs are not parsed further (that only rejects more). *)
Record node := { n_key : bytes; n_addrs : list bytes; n_ts : N; n_rpc : option (bytes * option bytes) }.
Definition put_option {A} (put : A -> bytes) (o : option A) : bytes := match o with None => [0] | Some x => 1 :: put x end.
(** bcs: the tag of an option is 0 or 1. *)
Definition get_option {A} (p : parser A) : parser (option A) :=
  t <- take 1 ;; match t with [0] => ret None | [1] => x <- p ;; ret (Some x) | _ => failp end.
(** types.rs 857-871 [LegacyNetworkInfo]: no rpc field. *)
Definition put_legacy (n : node) : bytes := put_fixed (n_key n) ++ put_seq put_fixed (n_addrs n) ++ le 8 (n_ts n).
Definition put_node (n : node) : bytes :=
  put_legacy n ++ put_option (fun p => put_fixed (fst p) ++ put_option put_fixed (snd p)) (n_rpc n).
Definition get_legacy : parser node :=
  k <- get_vec ;; a <- get_seq get_vec ;; t <- get_int 8 ;; ret {| n_key := k; n_addrs := a; n_ts := t; n_rpc := None |}.
Definition get_node : parser node :=
  l <- get_legacy ;; r <- get_option (h <- get_vec ;; w <- get_option get_vec ;; ret (h, w)) ;;
  ret {| n_key := n_key l; n_addrs := n_addrs l; n_ts := n_ts l; n_rpc := r |}.
(** types.rs 846-855 [NodeRecord], 873-880 [LegacyNodeRecord]: the info and a signature. *)
Definition put_record (n : node) (sig : bytes) : bytes := put_node n ++ put_fixed sig.
Definition put_legacy_record (n : node) (sig : bytes) : bytes := put_legacy n ++ put_fixed sig.
Definition get_record : parser (node * bytes) := n <- get_node ;; s <- get_fixed 48 ;; ret (n, s).
Definition get_legacy_record : parser (node * bytes) := n <- get_legacy ;; s <- get_fixed 48 ;; ret (n, s).

(** types.rs 908-917 [verify] and 947-967 [decode_and_verify]; [verifies key msg sig] is verify_raw. *)
Definition decode_and_verify (verifies : bytes -> bytes -> bytes -> bool) (value key : bytes) : option node :=
  match from_bytes get_record value with
  | Some (n, s) => if verifies key (put_node n) s then Some n else None
  | None => match from_bytes get_legacy_record value with
            | Some (n, s) => if verifies key (put_legacy n) s then Some n else None
            | None => None
            end
  end.
(** types.rs 941-945 [try_decode_compat]. *)
Definition decode_compat (value : bytes) : option (node * bytes) :=
  match from_bytes get_record value with Some r => Some r | None => from_bytes get_legacy_record value end.

(* ---------- sub-dags and consensus headers ---------- *)
(** types/src/primary/output.rs [CommittedSubDag] as its digest sees it: header digests, reputation
    scores (a map, reputation.rs 8-18), commit timestamp, randomness. *)
Record sdag := { s_heads : list bytes; s_scores : list (bytes * N); s_final : bool; s_ts : N; s_rand : bytes }.
(** output.rs 552-570 [CommittedSubDag::digest]: the bytes fed to the hasher. *)
Definition put_scores (sc : list (bytes * N)) (final : bool) : bytes :=
  put_seq (fun p => fst p ++ le 8 (snd p)) sc ++ [if final then 1 else 0].
Definition sdag_preimage (s : sdag) : bytes :=
  concat (s_heads s) ++ put_scores (s_scores s) (s_final s) ++ le 8 (s_ts s) ++ s_rand s.

(** block.rs 62-80 [digest_from_parts]. *)
Definition chead_preimage (parent sub : bytes) (num : N) : bytes := parent ++ sub ++ le 8 num ++ repeat 0 32.
(** block.rs 148-163 [ConsensusResult::digest_data]. *)
Definition result_preimage (epoch round num : N) (hash : bytes) : bytes := be 4 epoch ++ be 4 round ++ be 8 num ++ hash.

(* ---------- signed messages ---------- *)
(** types/src/crypto/intent.rs: three bytes (scope, version, app), then the value. *)
Definition intent (scope app : N) (v : bytes) : bytes := [scope; 0; app] ++ v.

(** What a BLS key of a validator signs: a vote on a header (vote.rs 30-60, scope ConsensusDigest of the
    header digest), a consensus result (subscriber.rs 300-312, the same scope), an epoch record
    (epoch.rs 48-57), the seed of a header (epoch.rs 260-295), a proof of possession
    (bls_signature.rs 198-213), and, without any intent, its node record in either layout (types.rs
    903-905) and the seed texts of its network keys (config/src/keys.rs 258-262, 342-350). *)
Inductive signed :=
| SVote (h : header)
| SResult (epoch round num : N) (hash : bytes)
| SEpoch (r : erec)
| SSeed (epoch round : N) (prior : bytes)
| SPossession (key address : bytes)
| SNode (n : node)
| SOldNode (n : node)
| SNetKey (worker : bool).
(** "primary network keypair", "worker network keypair". *)
Definition net_seed (worker : bool) : bytes :=
  (if worker then [119;111;114;107;101;114] else [112;114;105;109;97;114;121]) ++
  [32;110;101;116;119;111;114;107;32;107;101;121;112;97;105;114].

Section Sign.
Variable active : N -> bool.
Variable H : bytes -> bytes.               (* blake3 *)
Definition message (m : signed) : bytes :=
  match m with
  | SVote h => intent 2 1 (put_fixed (H (put_header active h)))
  | SResult e r n x => intent 2 1 (put_fixed (H (result_preimage e r n x)))
  | SEpoch r => intent 1 1 (put_fixed (H (put_erec r)))
  | SSeed e r p => intent 4 1 (le 4 e ++ le 4 r ++ put_fixed p)
  | SPossession k a => intent 0 0 (k ++ a)
  | SNode n => put_node n
  | SOldNode n => put_legacy n
  | SNetKey w => net_seed w
  end.
End Sign.

(* ---------- the seed chain ---------- *)
(** types/src/primary/seed_chain.rs 33-37, 82-84, 113-124: preimages of the epoch root and of a fold. *)
Definition root_domain : bytes := [84;78;95;69;80;79;67;72;95;83;69;69;68;95;82;79;79;84;95;86;49].
Definition fold_domain : bytes := [84;78;95;69;80;79;67;72;95;83;69;69;68;95;70;79;76;68;95;86;49].
Definition root_preimage (epoch : N) : bytes := root_domain ++ le 4 epoch.
Definition fold_preimage (value : bytes) (round : N) (sig : bytes) : bytes := fold_domain ++ value ++ le 4 round ++ sig.
