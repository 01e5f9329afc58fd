(** Consensus outputs: assembling them from a committed sub-dag (subscriber), writing them as pack
    records and rebuilding them from records (consensus pack).  Used by C41-C44.

    Digests, authors, addresses and batches are numbers; [bd] is the batch digest function and
    [hd parent sub number] the consensus header digest (types/src/primary/block.rs 64-77
    [digest_from_parts]).  Both are parameters: no property of them is built into the model. *)
From Verif Require Import Util.
Local Open Scope N_scope.

(** A primary header inside a sub-dag as far as outputs see it: its author and the batch digests of
    its payload in order (types/src/primary/header.rs, payload is an insertion-ordered map from batch
    digest to worker id).  Simplified: the worker ids and the remaining fields are dropped. *)
Record ohdr := { oh_author : N; oh_payload : list N }.

(** types/src/primary/output.rs [CommittedSubDag]: its headers, the leader's epoch, the commit
    timestamp; [sd_id] stands for every other field covered by the sub-dag digest. *)
Record subdag := { sd_hdrs : list ohdr; sd_epoch : N; sd_ts : N; sd_id : N }.

(** types/src/primary/block.rs [ConsensusHeader] (the unused [extra] field is left out). *)
Record chdr := { ch_parent : N; ch_sub : subdag; ch_num : N }.

(** types/src/primary/output.rs 31-42 [CertifiedBatch]: the execution address of the author and
    its batches in order. *)
Record cbatch := { cb_addr : N; cb_batches : list N }.

(** types/src/primary/output.rs 44-66 [ConsensusOutput]; [close_epoch] is always false when built
    and is recomputed by the consumer, so it is left out. *)
Record output := { out_sub : subdag; out_parent : N; out_num : N;
                   out_digests : list N; out_batches : list cbatch }.

(** output.rs 211-219 [consensus_header]. *)
Definition header_of (o : output) : chdr :=
  {| ch_parent := out_parent o; ch_sub := out_sub o; ch_num := out_num o |}.

(** output.rs 493-495 [num_primary_batches]. *)
Definition num_primary_batches (s : subdag) : nat :=
  fold_left (fun acc h => (acc + length (oh_payload h))%nat) (sd_hdrs s) 0%nat.

(** output.rs 127-134 [new_with_subdag]. *)
Definition bare_output (s : subdag) (parent num : N) : output :=
  {| out_sub := s; out_parent := parent; out_num := num; out_digests := []; out_batches := [] |}.

(** Rust maps keyed by digest.  [HashMap]: lookup and remove only, so an association list;
    [BTreeMap]/[BTreeSet]: kept sorted because their iteration order is observable. *)
Fixpoint amap_get (d : N) (m : list (N * N)) : option N :=
  match m with [] => None | (k, b) :: t => if k =? d then Some b else amap_get d t end.
Definition amap_del (d : N) (m : list (N * N)) : list (N * N) := filter (fun p => negb (fst p =? d)) m.
Definition amap_put (d b : N) (m : list (N * N)) : list (N * N) := (d, b) :: amap_del d m.

Fixpoint bmap_put (d b : N) (m : list (N * N)) : list (N * N) :=
  match m with
  | [] => [(d, b)]
  | (k, v) :: t => if d <? k then (d, b) :: m else if d =? k then (d, b) :: t else (k, v) :: bmap_put d b t
  end.
Fixpoint bset_put (d : N) (m : list N) : list N :=
  match m with
  | [] => [d]
  | k :: t => if d <? k then d :: m else if d =? k then m else k :: bset_put d t
  end.

(** The digests of a sub-dag's payloads, in header and payload order, and as a sorted set:
    subscriber.rs 467-476 and consensus_pack.rs 1604-1611 (the same loop). *)
Definition batch_digests (s : subdag) : list N :=
  fold_left (fun acc h => fold_left (fun acc d => acc ++ [d]) (oh_payload h) acc) (sd_hdrs s) [].
Definition batch_set (s : subdag) : list N :=
  fold_left (fun acc h => fold_left (fun acc d => bset_put d acc) (oh_payload h) acc) (sd_hdrs s) [].

Section Out.
Variable bd : N -> N.                  (* batch digest *)
Variable addr : N -> option N.         (* committee: execution address of an author *)

(** subscriber.rs 498-540, consensus_pack.rs 1663-1700: the batches of one header.  [done] are the
    certified batches already built, [guard] the extra [referenced_batches.contains] test of the
    pack reader (always true in the subscriber).  A digest is taken out of the map; if it is gone,
    the copy already placed earlier in this output is cloned; else the assembly fails.
    Not modelled: the adiri testnet feature flag that drops the clone in early epochs. *)
Fixpoint assemble_header (guard : N -> bool) (done : list cbatch) (payload : list N)
         (avail : list (N * N)) (cert : list N) : option (list (N * N) * list N) :=
  match payload with
  | [] => Some (avail, cert)
  | d :: rest =>
      match amap_get d avail with
      | Some b => assemble_header guard done rest (amap_del d avail) (cert ++ [b])
      | None =>
          if guard d then
            match find (fun b => bd b =? d) (flat_map cb_batches done ++ cert) with
            | Some b => assemble_header guard done rest avail (cert ++ [b])
            | None => None
            end
          else None
      end
  end.

(** subscriber.rs 493-549, consensus_pack.rs 1655-1710: one certified batch per header, with the
    author's address from the committee; an unknown author is an error. *)
Fixpoint assemble (guard : N -> bool) (hs : list ohdr) (avail : list (N * N)) (done : list cbatch)
  : option (list cbatch) :=
  match hs with
  | [] => Some done
  | h :: rest =>
      match assemble_header guard done (oh_payload h) avail [] with
      | None => None
      | Some (avail', cert) =>
          match addr (oh_author h) with
          | None => None
          | Some a => assemble guard rest avail' (done ++ [{| cb_addr := a; cb_batches := cert |}])
          end
      end
  end.

(** subscriber.rs 447-575 [fetch_batches].  [fetch] is the worker's answer for the requested set:
    [None] when the request fails.  Metrics and logging are left out. *)
Definition fetch_batches (fetch : list N -> option (list (N * N))) (s : subdag) (parent num : N)
  : option output :=
  if Nat.eqb (num_primary_batches s) 0 then Some (bare_output s parent num)
  else
    match fetch (batch_set s) with
    | None => None
    | Some answer =>
        (* fetch_batches_from_peers 581-610: collected into a HashMap, later entries win *)
        let fetched := fold_left (fun m p => amap_put (fst p) (snd p) m) answer [] in
        match assemble (fun _ => true) (sd_hdrs s) fetched [] with
        | None => None
        | Some bs => Some {| out_sub := s; out_parent := parent; out_num := num;
                             out_digests := batch_digests s; out_batches := bs |}
        end
    end.

(** Records of a pack file (consensus_pack.rs [PackRecord]); [RBad] is a record the iterator fails
    on (bad CRC, torn, undecodable, timeout): next_output_record 1551-1563.  [RMeta] carries an
    opaque encoding of the epoch metadata. *)
Inductive rec := RMeta (m : N) | RHeader (h : chdr) | RBatch (b : N) | RBad.

(** consensus_pack.rs 1371-1385 [collect_batches] and 1009-1034, 1066-1076: the records appended for
    one output (format v1: header first, then the distinct batches in digest order). *)
Definition collect_batches (o : output) : list (N * N) :=
  fold_left (fun m cb => fold_left (fun m b => bmap_put (bd b) b m) (cb_batches cb) m) (out_batches o) [].
Definition write_output (o : output) : list rec :=
  RHeader (header_of o) :: map (fun p => RBatch (snd p)) (collect_batches o).

(** consensus_pack.rs 1466-1500 [HeaderExpectation], [check_header_expectation]. *)
Variable hd : N -> subdag -> N -> N.
Definition digest_of (h : chdr) : N := hd (ch_parent h) (ch_sub h) (ch_num h).
Inductive expectation := ENone | EDigest (d : N) | EParent (d : N).
Definition check_expectation (h : chdr) (e : expectation) : bool :=
  match e with
  | ENone => true
  | EDigest d => digest_of h =? d
  | EParent p => ch_parent h =? p
  end.

(** consensus_pack.rs 1632-1660: batches are matched one by one against the sorted digests; the
    loop stops when all were read or the stream ends. *)
Fixpoint read_batches (exp : list N) (recs : list rec) (avail : list (N * N)) (refd : list N)
  : option (list (N * N) * list N * list rec) :=
  match recs with
  | [] => Some (avail, refd, [])
  | RBatch b :: rest =>
      match exp with
      | [] => None
      | e :: exp' =>
          if e =? bd b then
            let avail' := amap_put (bd b) b avail in
            let refd' := bd b :: refd in
            match exp' with
            | [] => Some (avail', refd', rest)
            | _ => read_batches exp' rest avail' refd'
            end
          else None
      end
  | _ :: _ => None
  end.

Inductive rres := REnd | RFail | ROk (o : output) (rest : list rec).

(** consensus_pack.rs 1566-1710 [iter_to_output] (format v1).  [cap] is
    [max_batches_per_output] (1459-1461).  [REnd] is the error [NotConsensus] the import loop
    treats as the end of the stream. *)
Definition iter_to_output (cap : nat) (e : expectation) (recs : list rec) : rres :=
  match recs with
  | [] => REnd
  | RHeader h :: rest =>
      if check_expectation h e then
        let s := ch_sub h in
        if Nat.eqb (num_primary_batches s) 0 then ROk (bare_output s (ch_parent h) (ch_num h)) rest
        else
          let exp := batch_set s in
          if (cap <? length exp)%nat then RFail
          else
            match read_batches exp rest [] [] with
            | None => RFail
            | Some (avail, refd, rest') =>
                match assemble (fun d => memN d refd) (sd_hdrs s) avail [] with
                | None => RFail
                | Some bs => ROk {| out_sub := s; out_parent := ch_parent h; out_num := ch_num h;
                                    out_digests := batch_digests s; out_batches := bs |} rest'
                end
            end
      else RFail
  | _ :: _ => RFail
  end.
End Out.
