(** Worker batches: validation, building, the quorum waiter, storage and availability (C46).

    Transactions are opaque byte strings; [recover] (decode and recover the signer, tn-reth
    [recover_signed_transaction]) is a parameter, as is the hash [H].  The batch encoding and its digest
    are those of WireModel.v. *)
From Verif Require Import Util WireModel.
Local Open Scope N_scope.

(* ---------- transactions ---------- *)
Inductive kind := KLegacy | K2930 | K1559 | K4844 | K7702.
Record tx := { t_kind : kind; t_gas : N }.
(** types/src/lib.rs 82-84 [batch_allowlisted_tx_type]. *)
Definition allowlisted (k : kind) : bool := match k with KLegacy | K2930 | K1559 => true | _ => false end.

(** types/src/worker/sealed_batch.rs 197-207. *)
Definition max_batch_gas : N := 30000000.
Definition max_batch_size : N := 1000000.
Definition lenN (b : bytes) : N := N.of_nat (length b).
Definition add64 (a b : N) : N := (a + b) mod 2 ^ 64.

Section Bat.
Variable H : bytes -> bytes.               (* keccak-256 *)
Variable recover : bytes -> option tx.
Definition digest (b : batch) : bytes := H (put_batch b).  (* sealed_batch.rs 100-140 [digest], [seal_slow] *)

(* ---------- batch-validator/src/validator.rs ---------- *)
Inductive verr := EDigest | EWorker | EEpoch | EEmpty | EBytes | ERecover | E4844 | EType | EGasOverflow | EGas | EFee.
Record validator := { v_worker : N; v_fee : N; v_epoch : N }.   (* 22-35 *)

(** 181-200: the first transaction outside the allowlist decides. *)
Fixpoint check_types (l : list tx) : option verr :=
  match l with
  | [] => None
  | t :: r => if allowlisted (t_kind t) then check_types r
              else match t_kind t with K4844 => Some E4844 | _ => Some EType end
  end.
(** 146-176: [checked_add] over u64, then the limit. *)
Fixpoint sum_gas (acc : N) (l : list tx) : option N :=
  match l with [] => Some acc | t :: r => if acc + t_gas t <? 2 ^ 64 then sum_gas (acc + t_gas t) r else None end.
Fixpoint recover_all (l : list bytes) : option (list tx) :=
  match l with
  | [] => Some []
  | b :: r => match recover b, recover_all r with Some t, Some ts => Some (t :: ts) | _, _ => None end
  end.
(** 38-82 [validate_batch] with its helpers (109-205); None = accepted.  Simplified: the parallel decode
    reports one error kind for any failing transaction. *)
Definition validate (v : validator) (d : bytes) (b : batch) : option verr :=
  if negb (beqb d (digest b)) then Some EDigest
  else if negb (b_worker b =? v_worker v) then Some EWorker
  else if negb (b_epoch b =? v_epoch v) then Some EEpoch
  else match b_txs b with
  | [] => Some EEmpty
  | _ =>
    if max_batch_size <? sumN (map lenN (b_txs b)) then Some EBytes
    else match recover_all (b_txs b) with
    | None => Some ERecover
    | Some ts =>
      match check_types ts with
      | Some e => Some e
      | None =>
        match sum_gas 0 ts with
        | None => Some EGasOverflow
        | Some g => if max_batch_gas <? g then Some EGas
                    else if negb (b_fee b =? v_fee v) then Some EFee else None
        end
      end
    end
  end.
Inductive penalty := PMild | PMedium | PSevere | PFatal.
(** consensus/worker/src/network/error.rs 84-104: what the reporter of a bad batch is charged. *)
Definition penalty_of (e : verr) : penalty :=
  match e with
  | EEpoch | E4844 | EType => PMedium
  | ERecover => PSevere
  | EEmpty | EFee | EWorker | EDigest | EGasOverflow | EGas | EBytes => PFatal
  end.

(* ---------- batch-builder/src/batch.rs ---------- *)
(** A pending transaction of the pool.  [p_size] is the in-memory size ([InMemorySize], txn_pool.rs 57),
    [p_enc] its EIP-2718 encoding. *)
Record ptx := { p_hash : N; p_sender : N; p_nonce : N; p_gas : N; p_cost : N; p_kind : kind; p_size : N; p_enc : bytes }.

Record bst := { s_bad : list N;            (* senders marked invalid in the iterator: txn_pool.rs 403-437 *)
                s_gas : N; s_size : N;
                s_txs : list ptx;          (* chosen, newest first *)
                s_blobs : list N; s_unsup : list N }.
Definition b0 : bst := {| s_bad := []; s_gas := 0; s_size := 0; s_txs := []; s_blobs := []; s_unsup := [] |}.
Definition mark (s : bst) (p : ptx) : bst :=
  {| s_bad := p_sender p :: s_bad s; s_gas := s_gas s; s_size := s_size s; s_txs := s_txs s; s_blobs := s_blobs s; s_unsup := s_unsup s |}.

(** batch.rs 76-139, one transaction the iterator would yield.  The pool's iterator yields a sender's
    transactions in nonce order and, once one was marked invalid, no further one of that sender (reth
    BestTransactions); that skip is the first line.  Additions are u64 and wrap (release build). *)
Definition bstep (s : bst) (p : ptx) : bst :=
  if memN (p_sender p) (s_bad s) then s
  else if max_batch_gas <? add64 (s_gas s) (p_gas p) then mark s p
  else if negb (allowlisted (p_kind p)) then
    match p_kind p with
    | K4844 => {| s_bad := p_sender p :: s_bad s; s_gas := s_gas s; s_size := s_size s; s_txs := s_txs s;
                  s_blobs := s_blobs s ++ [p_hash p]; s_unsup := s_unsup s |}
    | _ => {| s_bad := p_sender p :: s_bad s; s_gas := s_gas s; s_size := s_size s; s_txs := s_txs s;
              s_blobs := s_blobs s; s_unsup := s_unsup s ++ [p_hash p] |}
    end
  else if max_batch_size <? add64 (s_size s) (p_size p) then mark s p
  else {| s_bad := s_bad s; s_gas := add64 (s_gas s) (p_gas p); s_size := add64 (s_size s) (p_size p);
          s_txs := p :: s_txs s; s_blobs := s_blobs s; s_unsup := s_unsup s |}.
Definition bloop (best : list ptx) : bst := fold_left bstep best b0.
Definition chosen (best : list ptx) : list ptx := rev (s_txs (bloop best)).

(** 125-138 [sender_nonces], [sender_costs]: per sender the largest nonce and the saturating sum of costs. *)
Definition u256_max : N := 2 ^ 256 - 1.
Definition upd_acc (m : list (N * (N * N))) (p : ptx) : list (N * (N * N)) :=
  match find (fun e => fst e =? p_sender p) m with
  | Some (_, (n, c)) =>
      map (fun e => if fst e =? p_sender p then (fst e, (N.max n (p_nonce p), N.min u256_max (c + p_cost p))) else e) m
  | None => m ++ [(p_sender p, (p_nonce p, p_cost p))]
  end.
Record account := { a_addr : N; a_nonce : N; a_balance : N }.
(** 173-182 [changed_accounts]; [balance] is the canonical balance.  Simplified: nonce + 1 does not wrap
    (the pool refuses the largest nonce). *)
Definition changed (balance : N -> N) (txs : list ptx) : list account :=
  map (fun e => {| a_addr := fst e; a_nonce := fst (snd e) + 1; a_balance := balance (fst e) - snd (snd e) |})
      (fold_left upd_acc txs []).

Record bout := { o_batch : batch; o_mined : list N; o_changed : list account; o_blobs : list N; o_unsup : list N }.
(** 48-185 [build_batch]. *)
Definition build_batch (best : list ptx) (balance : N -> N) (benef : bytes) (epoch worker fee : N) : bout :=
  let txs := chosen best in
  {| o_batch := {| b_txs := map p_enc txs; b_epoch := epoch; b_benef := benef; b_fee := fee; b_worker := worker |};
     o_mined := map p_hash txs;
     o_changed := changed balance txs;
     o_blobs := s_blobs (bloop best); o_unsup := s_unsup (bloop best) |}.

(* ---------- consensus/worker/src/quorum_waiter.rs ---------- *)
(** One RPC to a peer: accepted, refused (RPCError), or anything else. *)
Inductive rpc := ROk | RRefused | RTransient.
Inductive answer := AAccept | AReject | ANetwork.
(** 84-113 [waiter]: three attempts. *)
Fixpoint waiter (k : nat) (rs : list rpc) : answer :=
  match k with
  | O => ANetwork
  | S k' => match rs with [] => ANetwork | ROk :: _ => AAccept | RRefused :: _ => AReject | RTransient :: t => waiter k' t end
  end.
Inductive qres := QOk | QRejected | QAnti.
(** types/src/committee.rs 686-688 and 160-172: every member counts one. *)
Definition quorum (n : N) : N := 2 * n / 3 + 1.

(** 176-236: the loop over the peer answers in the order they arrive.  None = still waiting (the timeout
    then ends it).  [left] = answers outstanding. *)
Fixpoint qloop (n total avail rejected : N) (answers : list answer) : option qres :=
  let maxrej := n - quorum n in
  match answers with
  | [] => if avail =? 0 then Some QAnti else None
  | a :: t =>
      match a with
      | AAccept =>
          if quorum n <=? total + 1 then Some QOk
          else if maxrej <? rejected then Some QRejected
          else if total + 1 + (avail - 1) <? quorum n then Some QAnti
          else qloop n (total + 1) (avail - 1) rejected t
      | AReject =>
          if maxrej <? rejected + 1 then Some QRejected
          else if total + (avail - 1) <? quorum n then Some QAnti
          else qloop n total (avail - 1) (rejected + 1) t
      | ANetwork =>
          if maxrej <? rejected then Some QRejected
          else if total + (avail - 1) <? quorum n then Some QAnti
          else qloop n total (avail - 1) rejected t
      end
  end.
(** 118-260 [verify_batch] in a committee of [n] members: self counts from the start, the answers are those
    of the other n - 1. *)
Definition verify_batch (n : N) (answers : list answer) : option qres := qloop n 1 (n - 1) 0 answers.

(* ---------- storage of one node ---------- *)
(** NodeBatchesCache lives in cache_db, Payload in epoch_db (storage/src/lib.rs 96-106), two separate
    layered databases each with its own write queue (composite_db.rs 31-45): of every table the writes,
    newest first, and how many of the oldest are on disk.  [n_chain]: the consensus chain (packs on disk;
    simplified: durable once written).  [n_own]: digests reported to the own primary. *)
Record nst := { n_cache : list (bytes * batch); n_cdur : nat; n_pay : list (bytes * N); n_pdur : nat;
                n_chain : list (bytes * batch); n_own : list (bytes * N) }.
Definition n0 : nst := {| n_cache := []; n_cdur := 0; n_pay := []; n_pdur := 0; n_chain := []; n_own := [] |}.
Definition lookup (d : bytes) (m : list (bytes * batch)) : option batch :=
  match find (fun e => beqb (fst e) d) m with Some (_, b) => Some b | None => None end.
(** batch_fetcher.rs 75-98 [get_batch_local]. *)
Definition local (s : nst) (d : bytes) : option batch :=
  match lookup d (n_cache s) with Some b => Some b | None => lookup d (n_chain s) end.
Definition insert_batch (d : bytes) (b : batch) (s : nst) : nst :=
  {| n_cache := (d, b) :: n_cache s; n_cdur := n_cdur s; n_pay := n_pay s; n_pdur := n_pdur s; n_chain := n_chain s; n_own := n_own s |}.
(** storage/src/stores/payload_store.rs 15-22. *)
Definition write_payload (d : bytes) (w : N) (s : nst) : nst :=
  {| n_cache := n_cache s; n_cdur := n_cdur s; n_pay := (d, w) :: n_pay s; n_pdur := n_pdur s; n_chain := n_chain s; n_own := n_own s |}.
Definition contains_payload (s : nst) (d : bytes) (w : N) : bool :=
  existsb (fun e => beqb (fst e) d && (snd e =? w)) (n_pay s).

(** consensus/worker/src/network/handler.rs 270-302 [process_report_batch]; [stop] = the node dies between
    the two writes.  [member]: the sender is in the committee.  Returns the acknowledgement. *)
Definition report_batch (v : validator) (member : bool) (d : bytes) (b : batch) (stop : bool) (s : nst) : nst * bool :=
  if negb member then (s, false)
  else match validate v d b with
  | Some _ => (s, false)
  | None => let s1 := insert_batch d b s in
            if stop then (s1, false) else (write_payload d (v_worker v) s1, true)
  end.

(* ---------- asking peers for batches ---------- *)
(** Frames of a sync stream (network-libp2p/src/sync/frame.rs 27-44); FBad = error frame, out of place
    frame, timeout or broken stream. *)
Inductive frame := FData (bs : bytes) | FEnd | FBad.
(** A peer: what it streams for a request; None = it does not answer the protocol. *)
Definition peer := list bytes -> option (list frame).
Definition mem (d : bytes) (l : list bytes) : bool := existsb (beqb d) l.
(** consensus/worker/src/network/handle.rs 435-503 [read_sync_batches]. *)
Fixpoint read_sync (req : list bytes) (fs : list frame) (acc : list (bytes * batch)) : option (list (bytes * batch)) :=
  match fs with
  | FData bs :: t =>
      if Nat.leb (length req) (length acc) then None
      else match from_bytes get_batch bs with
      | None => None
      | Some b => let d := digest b in
                  if negb (mem d req) then None
                  else if mem d (map fst acc) then None
                  else read_sync req t (acc ++ [(d, b)])
      end
  | FEnd :: _ => Some acc
  | _ => None
  end.
Definition max_per_request : nat := 500.  (* network/mod.rs 51 *)
Definition remove_d (d : bytes) (l : list bytes) : list bytes := filter (fun x => negb (beqb d x)) l.
(** 205-220: keep what is still asked for. *)
Fixpoint take_new (got : list (bytes * batch)) (req : list bytes) (acc : list (bytes * batch)) : list bytes * list (bytes * batch) :=
  match got with
  | [] => (req, acc)
  | (d, b) :: t => if mem d req then take_new t (remove_d d req) (acc ++ [(d, b)]) else take_new t req acc
  end.
(** 178-230: one pass over the connected peers. *)
Fixpoint ask_peers (peers : list peer) (req : list bytes) (acc : list (bytes * batch))
  : list bytes * list (bytes * batch) :=
  match peers with
  | [] => (req, acc)
  | p :: t =>
      match req with
      | [] => (req, acc)
      | _ => match p (firstn max_per_request req) with
             | None => ask_peers t req acc
             | Some fs => match read_sync (firstn max_per_request req) fs [] with
                          | None => ask_peers t req acc
                          | Some got => let '(req', acc') := take_new got req acc in ask_peers t req' acc'
                          end
             end
      end
  end.
(** 165-261 [request_batches]: at most three passes; returns the batches (None = error) and what is still
    missing. *)
Fixpoint request_go (k : nat) (passes : list (list peer)) (req : list bytes) (acc : list (bytes * batch))
  : option (list (bytes * batch)) * list bytes :=
  match k with
  | O => (match acc, req with [], _ :: _ => None | _, _ => Some acc end, req)
  | S k' =>
      match passes with
      | [] => (None, req)
      | [] :: _ => (Some acc, req)
      | peers :: t =>
          let '(req', acc') := ask_peers peers req acc in
          match acc', req' with
          | [], _ :: _ => request_go k' t req' acc'
          | _, _ => (Some acc', req')
          end
      end
  end.
Definition request_batches (passes : list (list peer)) (req : list bytes) := request_go 3 passes req [].

(** The answer of a peer: stream_codec.rs 59-116 with batch_fetcher.rs 112-157 [get_batches_local]; every
    frame is bounded by handle.rs 43, 53-55 (1024 bytes above the batch size); a frame is the variant tag,
    the length and the encoded batch (codec.rs 112-136).  Simplified: the chunks of 200 digests only set
    the flush points. *)
Definition max_frame : N := max_batch_size + 1024.
Definition frame_len (b : batch) : N := lenN (3 :: put_fixed (put_batch b)).
Definition get_batches_local (s : nst) (ds : list bytes) : list batch :=
  let cached := flat_map (fun d => match lookup d (n_cache s) with Some b => [b] | None => [] end) ds in
  let chain l := flat_map (fun d => match lookup d (n_chain s) with Some b => [b] | None => [] end) l in
  match cached with
  | [] => chain ds
  | _ => if Nat.ltb (length cached) (length ds)
         then cached ++ chain (filter (fun d => negb (mem d (map digest cached))) ds)
         else cached
  end.
Fixpoint send (bs : list batch) : list frame :=
  match bs with [] => [FEnd] | b :: t => if frame_len b <=? max_frame then FData (put_batch b) :: send t else [FBad] end.
Definition serve (s : nst) (req : list bytes) : list frame := send (get_batches_local s req).

(* ---------- storing what was asked for ---------- *)
(** consensus/worker/src/network/primary.rs 85-140 [store_synced_batches].  The inserts of a layered
    transaction are visible at once and stay even if it is not committed (layered_db.rs 96-135, 149-155). *)
Fixpoint store_synced (v : validator) (certified : bool) (requested : list bytes) (got : list (bytes * batch)) (s : nst) : nst * bool :=
  match got with
  | [] => (s, true)
  | (d, b) :: t =>
      if negb certified && (match validate v d b with Some _ => true | None => false end) then (s, false)
      else if mem d requested then store_synced v certified requested t (insert_batch d b s)
      else (s, false)
  end.
(** primary.rs 29-62 [synchronize]. *)
Definition synchronize (v : validator) (certified : bool) (ds : list bytes) (passes : list (list peer)) (s : nst) : nst * bool :=
  let missing := bset_of (filter (fun d => match local s d with None => true | Some _ => false end) ds) in
  match missing with
  | [] => (s, true)
  | _ => match request_batches passes missing with
         | (None, _) => (s, false)
         | (Some got, rest) => let '(s1, ok) := store_synced v certified missing got s in
                               (s1, ok && match rest with [] => true | _ => false end)
         end
  end.

(** A header: author and payload (digest, worker id), the digests distinct (an IndexMap). *)
Record hdr := { h_author : N; h_payload : list (bytes * N) }.
Fixpoint write_all (w : N) (ds : list bytes) (s : nst) : nst :=
  match ds with [] => s | d :: t => write_all w t (write_payload d w s) end.
(** primary/src/state_sync/header_validator.rs 126-152: one worker id; the retries, and after success the
    payload entries ([Some k] = the node dies after [k] of them). *)
Fixpoint sync_group (v : validator) (certified : bool) (w : N) (ds : list bytes)
    (tries : list (list (list peer))) (dies : option nat) (s : nst) : nst * bool :=
  match tries with
  | [] => (s, false)
  | p :: t => let '(s1, ok) := synchronize v certified ds p s in
              if ok then match dies with
                         | None => (write_all w ds s1, true)
                         | Some k => (write_all w (firstn k ds) s1, false)
                         end
              else sync_group v certified w ds t dies s1
  end.
Fixpoint sync_groups (v : validator) (certified : bool) (gs : list (N * list bytes))
    (plan : list (list (list (list peer)) * option nat)) (s : nst) : nst * bool :=
  match gs, plan with
  | [], _ => (s, true)
  | (w, ds) :: t, (tries, dies) :: pt =>
      let '(s1, ok) := sync_group v certified w ds tries dies s in
      if ok then sync_groups v certified t pt s1 else (s1, false)
  | _ :: _, [] => (s, false)
  end.
(** 118-123: the digests whose (digest, worker id) is not recorded, grouped by worker id. *)
Fixpoint add_group (w : N) (d : bytes) (gs : list (N * list bytes)) : list (N * list bytes) :=
  match gs with [] => [(w, [d])] | (w', ds) :: t => if w' =? w then (w', ds ++ [d]) :: t else (w', ds) :: add_group w d t end.
Fixpoint missing_groups (s : nst) (pl : list (bytes * N)) : list (N * list bytes) :=
  match pl with
  | [] => []
  | (d, w) :: t => if contains_payload s d w then missing_groups s t else add_group w d (missing_groups s t)
  end.
(** 69-185 [sync_header_batches].  Simplified: the groups run one after the other (they are independent),
    and the age checks are left out (they only refuse more). *)
Definition sync_header (me : N) (v : validator) (certified : bool) (h : hdr)
    (plan : list (list (list (list peer)) * option nat)) (s : nst) : nst * bool :=
  if h_author h =? me then (s, true) else sync_groups v certified (missing_groups s (h_payload h)) plan s.

(** handler.rs 167-266: gossip prefetch of one digest of the current epoch. *)
Definition prefetch (v : validator) (d : bytes) (passes : list (list peer)) (s : nst) : nst :=
  match lookup d (n_cache s) with
  | Some _ => s
  | None => match request_batches passes [d] with
            | (Some ((d', b) :: _), _) =>
                if negb (b_epoch b =? v_epoch v) then s
                else match validate v d' b with Some _ => s | None => insert_batch d' b s end
            | _ => s
            end
  end.

(** batch_fetcher.rs 184-292 [fetch_for_primary]: passes until nothing is missing; None = still trying. *)
Definition fetch_local (s : nst) (missing : list bytes) (got : list (bytes * batch)) : list bytes * list (bytes * batch) :=
  let got' := got ++ map (fun b => (digest b, b)) (get_batches_local s missing) in
  (filter (fun d => negb (mem d (map fst got'))) missing, got').
Definition store_all (bs : list (bytes * batch)) (s : nst) : nst := fold_left (fun s e => insert_batch (fst e) (snd e) s) bs s.
Fixpoint fetch_loop (rounds : list (list (list peer))) (missing : list bytes) (got : list (bytes * batch)) (s : nst)
  : nst * option (list (bytes * batch)) :=
  match missing with
  | [] => (s, Some got)
  | _ =>
    match rounds with
    | [] => (s, None)
    | p :: t =>
        let '(m1, got1) := fetch_local s missing got in
        match m1 with
        | [] => (s, Some got1)
        | _ => match request_batches p m1 with
               | (Some new, m2) => fetch_loop t m2 (got1 ++ new) (store_all new s)
               | (None, m2) => fetch_loop t m2 got1 s
               end
        end
    end
  end.
Definition fetch_for_primary rounds (ds : list bytes) (s : nst) := fetch_loop rounds (bset_of ds) [] s.

(** consensus/worker/src/worker.rs 293-388 [seal]: [q] = what the quorum waiter said; the batch is stored and
    reported to the own primary only after a quorum; [stop] = the node dies before the report. *)
Definition seal (v : validator) (b : batch) (q : option qres) (stop : bool) (s : nst) : nst * bool :=
  match q with
  | Some QOk => let s1 := insert_batch (digest b) b s in
                if stop then (s1, false)
                else ({| n_cache := n_cache s1; n_cdur := n_cdur s1; n_pay := n_pay s1; n_pdur := n_pdur s1; n_chain := n_chain s1;
                         n_own := (digest b, v_worker v) :: n_own s1 |}, true)
  | _ => (s, false)
  end.

(** The database threads write some of the queued entries; the votes of this node are synced with the
    epoch database before they are sent (primary/src/network/handler.rs 606, 993, 1031), the cache database
    is not. *)
Definition flush (c p : nat) (s : nst) : nst :=
  {| n_cache := n_cache s; n_cdur := Nat.min (length (n_cache s)) (Nat.max (n_cdur s) c);
     n_pay := n_pay s; n_pdur := Nat.min (length (n_pay s)) (Nat.max (n_pdur s) p); n_chain := n_chain s; n_own := n_own s |}.
Definition flush_epoch_db (s : nst) : nst := flush 0 (length (n_pay s)) s.
(** After a crash only what is on disk is left; the proposer starts without digests. *)
Definition lastn {A} (k : nat) (l : list A) : list A := skipn (length l - k) l.
Definition crash (s : nst) : nst :=
  {| n_cache := lastn (n_cdur s) (n_cache s); n_cdur := n_cdur s; n_pay := lastn (n_pdur s) (n_pay s); n_pdur := n_pdur s;
     n_chain := n_chain s; n_own := [] |}.

(* ---------- the network of workers in one epoch ---------- *)
Inductive ev :=
| EvReport (i : N) (member : bool) (d : bytes) (b : batch) (stop : bool)
| EvPrefetch (i : N) (d : bytes) (passes : list (list peer))
| EvSeal (i : N) (b : batch) (q : option qres) (stop : bool)
| EvVote (i : N) (h : hdr) (plan : list (list (list (list peer)) * option nat))
| EvOwn (i : N) (h : hdr)
| EvCert (h : hdr) (signers : list N)
| EvSyncCert (i : N) (h : hdr) (plan : list (list (list (list peer)) * option nat))
| EvFetch (i : N) (ds : list bytes) (rounds : list (list (list peer)))
| EvSave (i : N) (d : bytes)
| EvFlush (i : N) (c p : nat)
| EvCrash (i : N).

(** [g_votes]: signatures given by honest members; [g_lost]: members that lost a stored batch in a crash;
    [g_seen]: every batch an honest member ever accepted by validation (history, not state of the nodes). *)
Record gst := { g_node : N -> nst; g_votes : list (N * hdr); g_certs : list hdr; g_lost : list N; g_seen : list batch }.
Definition g0 : gst := {| g_node := fun _ => n0; g_votes := []; g_certs := []; g_lost := []; g_seen := [] |}.
Definition upd (f : N -> nst) (i : N) (s : nst) : N -> nst := fun j => if j =? i then s else f j.
Definition set_node (g : gst) (i : N) (s : nst) (seen : list batch) : gst :=
  {| g_node := upd (g_node g) i s; g_votes := g_votes g; g_certs := g_certs g; g_lost := g_lost g; g_seen := seen ++ g_seen g |}.
Definition vote (g : gst) (i : N) (h : hdr) (s : nst) : gst :=
  {| g_node := upd (g_node g) i s; g_votes := (i, h) :: g_votes g; g_certs := g_certs g; g_lost := g_lost g; g_seen := g_seen g |}.
(** What the node cached beyond what it had. *)
Definition fresh (s s' : nst) : list batch := map snd (firstn (length (n_cache s') - length (n_cache s)) (n_cache s')).

Variable v : validator.                    (* same worker, epoch and base fee at every member *)
Variable committee : list N.
Variable honest : N -> bool.
Fixpoint pl_eqb (a b : list (bytes * N)) : bool :=
  match a, b with
  | [], [] => true
  | x :: s, y :: t => beqb (fst x) (fst y) && (snd x =? snd y) && pl_eqb s t
  | _, _ => false
  end.
Definition hdr_eqb (a b : hdr) : bool := (h_author a =? h_author b) && pl_eqb (h_payload a) (h_payload b).
Definition voted (g : gst) (i : N) (h : hdr) : bool := existsb (fun e => (fst e =? i) && hdr_eqb (snd e) h) (g_votes g).
Definition signed_ok (g : gst) (h : hdr) (i : N) : bool := memN i committee && (negb (honest i) || voted g i h).

(** Only honest members take the node steps (the others do what they want: every message above is
    arbitrary).  A certificate needs distinct signers with quorum, the honest among them having voted. *)
Definition gstep (g : gst) (e : ev) : gst :=
  match e with
  | EvReport i m d b stop => let '(s, _) := report_batch v m d b stop (g_node g i) in set_node g i s (fresh (g_node g i) s)
  | EvPrefetch i d ps => let s := prefetch v d ps (g_node g i) in set_node g i s (fresh (g_node g i) s)
  | EvSeal i b q stop =>
      (* only valid batches of the own builder (theorem C46_built_batch_accepted) *)
      match validate v (digest b) b with
      | None => let '(s, _) := seal v b q stop (g_node g i) in set_node g i s (fresh (g_node g i) s)
      | Some _ => g
      end
  | EvVote i h plan =>
      if h_author h =? i then g
      else let '(s, ok) := sync_header i v false h plan (g_node g i) in
           let g1 := set_node g i s (fresh (g_node g i) s) in
           if ok then vote g1 i h (flush_epoch_db s) else g1
  | EvOwn i h =>
      if (h_author h =? i) && forallb (fun e => existsb (fun o => beqb (fst o) (fst e) && (snd o =? snd e)) (n_own (g_node g i))) (h_payload h)
      then vote g i h (flush_epoch_db (g_node g i)) else g
  | EvCert h signers =>
      if (quorum (N.of_nat (length committee)) <=? N.of_nat (length (nodup N.eq_dec signers))) && forallb (signed_ok g h) signers
      then {| g_node := g_node g; g_votes := g_votes g; g_certs := h :: g_certs g; g_lost := g_lost g; g_seen := g_seen g |} else g
  | EvSyncCert i h plan =>
      if existsb (hdr_eqb h) (g_certs g)
      then let '(s, _) := sync_header i v true h plan (g_node g i) in set_node g i s [] else g
  | EvFetch i ds rounds =>
      if forallb (fun d => existsb (fun h => mem d (map fst (h_payload h))) (g_certs g)) ds
      then let '(s, _) := fetch_for_primary rounds ds (g_node g i) in set_node g i s [] else g
  | EvSave i d =>
      let s := g_node g i in
      match local s d with
      | Some b => set_node g i {| n_cache := n_cache s; n_cdur := n_cdur s; n_pay := n_pay s; n_pdur := n_pdur s;
                                  n_chain := (d, b) :: n_chain s; n_own := n_own s |} []
      | None => g
      end
  | EvFlush i c p => set_node g i (flush c p (g_node g i)) []
  | EvCrash i =>
      let s := g_node g i in
      let g1 := set_node g i (crash s) [] in
      {| g_node := g_node g1; g_votes := g_votes g1; g_certs := g_certs g1;
         g_lost := (if Nat.ltb (n_cdur s) (length (n_cache s)) then [i] else []) ++ g_lost g; g_seen := g_seen g1 |}
  end.
Definition reach (es : list ev) : gst := fold_left gstep es g0.
End Bat.
