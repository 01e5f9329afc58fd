# Design: a Rocq (Coq 8.16.1) model of telcoin-network

Sources: `/repo` at the pinned commit, read as text. Model: `/verif/rocq/theories`.
Every definition of a `*Model.v` file carries a comment with the file and lines it models and the
simplifications made. Specifications independent of the model's helpers live in `*Spec.v`, proofs in the files named per
section below, property theorems (`Cnn_...`) in `Props_*.v`, with an example beside them that instantiates their hypotheses.
A theorem named `..._refuted` proves that the code does not keep a promise made by its own comments or assumed by a caller, or
that a hypothesis of a theorem beside it cannot be dropped.

## Trusted base

* Coq's kernel (8.16.1) and the standard library / std++ definitions the statements use.
* `Print Assumptions` for each theorem: see the section "Print Assumptions" at the end ("Closed under
  the global context" for every theorem).
* The reading of the Rust code: the model was written by hand from the source; nothing is extracted.
* External functions (hashes, BLS signing / verification / aggregation, crc32, ChaCha choice, bloom hash, serialisation) are
  universally quantified parameters of the theorems (closed `Section` variables). Where a theorem needs an
  assumption about one (e.g. collision-freeness of header digests on the set of certificates considered) it is an
  explicit hypothesis of that theorem.
* Threads, tokio scheduling, OS file semantics, libp2p, the EVM, and mdbx are not modelled, except where a
  section below says which abstract behaviour stands for them.

## Per-property plan

| id | model | proof |
|----|-------|-------|
| C01 | committee as duplicate-free list of members, thresholds with Rust integer division | counting on lists (pigeonhole) + lia, every N |
| C02 | same | same |
| C03 | `VotesAggregator::append` as step function; signature check = oracle | invariant over vote sequences |
| C04 | certificate construction from votes, `signed_by` walk | round trip by induction on committee keys; arbitrary bitmap weight = number of selected keys |
| C05 | `CertificatesAggregator::append` per round | invariant over append sequences |
| C06 | `vote`/`vote_inner` vote-store part, with durable/volatile store and crash steps | invariant over event histories: durable last vote dominates every vote returned |
| C07 | C01+C03+C04+C06 composed: verified certificates and honest voters | pigeonhole on signers |
| C08 | full `Bullshark::process_certificate`, `ConsensusState`, `order_leaders`, `order_dag`, schedule | simulation against a node-independent "global" commit function over the full DAG |
| C09-C12, C15 | same model | invariants over certificate histories |
| C13-C14 | `LeaderSwapTable::new` with its loops | termination measure, list invariants; budget refuted by witness |
| C16 | `seed_chain.rs`, `resolve_seed_chain_anchor` | fold law; case analysis on the recovered cursors |
| C17 | bit packing with explicit mod 2^64 | N arithmetic |
| C18-C19 | `compute_next_base_fee_eip1559`, entry/close of a worker | integer arithmetic |
| C20 | `GasAccumulator`, `RewardsCounter` | invariant over op sequences (refinement to sums over history) |
| C21-C22 | `PendingCertificateManager`, `process_verified_certificates`, gc sweep (SyncModel.v) | one invariant tying the two maps, the store and the work queue, over arbitrary event sequences, gc advances and HashSet walk orders |
| C23 | `DataFile` with its read/write buffers | refinement to a byte list |
| C24 | pack records, fetch, iterator | refinement to a list of records; torn tails |
| C25 | `PositionIndex` | refinement to a list |
| C26 | `HdxIndex` linear hashing with buckets, overflow chains and bloom | refinement to a finite map |
| C27 | consensus gossip tally | invariants over message histories |
| C28 | `vote_inner` checks | decision rule: accepted implies every rule |
| C29, C31 | `Proposer` and `Certifier` as tasks over the layered database, with crashes, restarts and epoch changes (PropModel.v) | invariants of the guard records over every event history; the conditions shown necessary by refuting runs |
| C30 | fetched batch: reset, classification, direct checks, marking (SyncModel.v) | exact input/output relation of the batch, then induction along parent digests (acyclic because they are hashes) |
| C32 | `EpochRecord`/`EpochCertificate` verification | counting of bitmap signers |
| C33 | seeded shuffle and reservoir choice of the next committee (ShuffleModel.v) | set/multiplicity invariants over every registry and generator |
| C34 | executed outputs, consensus log, slot hint, restart, replay (RecountModel.v) | one invariant over every event history with crashes |
| C35 | the layered database (memory over disk) and its writer thread (LdbModel.v, LdbHist.v, LdbChain.v) | refinement of one map by both layers over every history with crashes |
| C38 | the epoch record database actor and its callers (EpochDbModel.v) | invariants over every history of calls, turns, failures, restarts |
| C39 | the TEL precompile inside a four-kind call frame, with transfers and blocks around it (TelModel.v) | exact characterisation of successful calls, then induction over histories |
| C40 | `reimburse_caller`, `reward_beneficiary`, `calculate_gas_penalty` (FeeModel.v) | integer arithmetic for all 64/128-bit values |
| C41 | the subscriber, packs and slot of one node through epochs, crashes, mode changes (SubModel.v, OutModel.v) | invariant tying packs, slot, channel, engine queue and numbering to the agreed chain, over every history |
| C42 | the consensus pack: record stream, position and digest indexes, persist, repair on open (EpackModel.v, OutModel.v) | refinement of a log with a persisted prefix over every history of saves, persists, crashes |
| C43 | import of an epoch's pack from an untrusted stream, both format versions, install decision (ImpModel.v over OutModel.v) | backward induction along parent hashes from the certified final header; forward run for the honest stream |
| C44 | backward walks, walk ledger, cache, forward drain, sync channel, subscriber save (FolModel.v over OutModel.v) | two invariants (everything stored is true; the channel holds exactly the outputs between last saved and last drained); progress and ledger by induction |
| C45 | BCS writer and parser at byte level, header/batch/epoch record/node record formats, digest preimages, signed messages | parser round trip and canonicity lemmas, injectivity of preimages, explicit collisions |
| C46 | batch validator, builder, quorum waiter, node stores, report/seal/prefetch/synchronise/fetch, stream answers, crashes, network of workers | exact characterisation of validation, loop invariants, growth relation of stores, global invariant over all event lists, liveness of one fetch round |
| C47 | NetModel: all validators' vote service, proposer/certifier, certificate intake, vote aggregation in one event list | every accepted certificate has a quorum of real signatures (by induction over executions and digest rank), honest signatures are unique per slot (C06, C29), hence the certified headers satisfy BullSpec.dag_ok and C08 applies |
| C48 | LatModel: slot encoding with checksum, two files with dirty contents, background thread queue, kills, crashes, hint | invariants: drained current slot = memory value; at most one update in flight in paced histories; refutations by runs |
| C49 | AMap, PeersModel: AllPeers, Peer, BannedPeers function by function; events of the manager | one invariant (identities, index, counters, address counts) kept by every event, heap selection proved to pick the oldest; refutations by runs |
| C50 | PeersModel: Score, penalties, heartbeats, locks, exemption | per-event effect of each transition on each record, induction over histories; refutations by runs and by induction over heartbeats |
| C51 | ExecModel: payload builder, block environment and context, block assembly, engine loop, persist with retry, rollback, restart rebuild | independent chain relation (ExecSpec), functional; one invariant through all events and faults; restart lemma; catch-up; refutations by runs |
| C52 | CacheModel: temporary-ban cache insert/remove/heartbeat with its expects | independent list specification `held`; refinement by induction on the history; duration theorems |
| C53 | MgrModel: peer manager over the peer table, ban cache, event queue, gossip blacklist | invariant linking table, cache, queue and blacklist through every event; refutations by runs |
| C54 | MgrModel: known-peer directory, pinned identities, committee slots | projection of each event onto the directory (`mstep_dir`), induction on histories; refutation by a run |
| C55 | MgrModel: pruning, limits, peer exchange, discovery heartbeat, dial queue | sorting and sampling lemmas, status frame lemmas, invariants of table and queue; counts stated with lists of distinct peers; refutations by runs |
| C56 | VqModel: gossip gate, vote dedup, router queues, collector tasks, epoch close, restart re-vote, as one event system over the C38 database | invariants over all runs (ysafe, ids_ok, pinv); staged invariant kinv (waiting, queue open, collecting) for liveness; refutations by runs |
| C57 | ExexModel: handles with bounded channels, router, replay cursor, height filter, three nested round-robin merges | loss invariant over all runs (hinv), simulation for isolation, exact poll lists, weights for fairness |
| C58 | PbModel: the proposer's main loop as a state machine with queue, tracked headers, header task and guard record | invariants over all runs: unique header per round (inv1), cover, ghost set of headers with disjoint batches (inv2), position of a digest (turn) |
| C59 | CfModel: the three tables, request bounds, collector, frames, fan-out over peers, fetcher | Inv ties the tables to the surviving set (`stored`); the collector's heap holds the least open round of each author (QI); fetcher by induction over events |
| C60 | FwModel: host policy, answer classes, fallback walk, batch task, cache and admission, builder backoff | an induction principle over the walk's six cases gives its full specification (wspec); the batch by composition; the cache against `down_since` read off the history |
| C61 | SnModel: pack writer/readers/verify, export walk, restorer, load-state with crash points | grammar of accepted streams by induction on the stream; import loop simulates insertion into the state map; root injectivity; record chain of C32; durable states as a trace |
| C62 | PvModel: validate_pack_file, both walks, group closing, finalize; PvSpec: problems by position | invariant of the walk over every prefix of the file; layouts of accepted streams, shared with the importer model of C43, both directions |
| C63 | KadModel: KadStore, start-up load, inbound put and add-provider; KadSpec: last accepted record and announcement by history | invariant over all histories (rows decodable and keyed, one row per key, live row = live last accepted, counters) | 
| C64 | CodecModel: decode_message, encode_message, codec, snappy frames; CodecSpec: the bytes of a message | the segmented reads equal a function of all bytes that arrive; induction over chunks and messages | 
| C65 | SfrModel: sync frames and requests (BCS), serving a source, the receiving reader; SfrSpec: transfers as frames | induction over pieces on top of C64 | 
| C66 | RlModel: buckets, prefix key, table, check, sweep; RlSpec: windows of the history of answers | the bucket's level is the least slack over all windows ending now; invariant over runs | 
| C67 | NtModel: save_cert, notify, register, read, cancel, clean-up as interleaving steps | one invariant over reachable states: a live waiter's sender is in the map, taken by a notifier, or used | 
| C36, C37 | Bullshark extra invariants (see properties.jsonl) | same model as C08 |

## What is modelled, and what is assumed

**Committee (C01, C02, C35 limits; `CommitteeModel.v`).** Construction, both maps, thresholds with Rust's integer
division, seats by key. Bootstrap servers and network addresses are dropped.

**Certificates and aggregators (C03-C05; `CertModel.v`).** Vote aggregation, certificate construction by the committee
walk, bitmap reading, verification. BLS verification is a parameter (`averify` on a digest and a key list).

**Leader schedule (C13-C14; `LeaderModel.v`).** The ChaCha choice is a parameter; swap table loops are as in the code.
C14's budget is false of the code as documented (`C14_budget_refuted`); `C14_bad_budget_exact` is what holds instead.

**Layered database (C35; `LdbModel.v`, `LdbChain.v`).** Memory layer, FIFO channel, database thread with batched
transactions, crash. Not modelled: mdbx itself (a map with atomic transactions), cursors across layers.

**Vote service (C06, C07, C28; `VoteModel.v`).** Every await point of `vote`/`vote_inner` is a separate event; tasks
interleave arbitrarily. Assumptions built in: the epoch never decreases across a crash; tasks are dropped at an epoch
change; a dead database thread is one that is never scheduled; the environment (missing parents, headers, batch
availability) answers arbitrarily.

**Bullshark (C08-C12, C15, C16, C36, C37; `BullModel.v`).** The whole of `process_certificate`, `ConsensusState`,
`order_leaders`, `order_dag`, the schedule and its recovery. Assumptions stated as hypotheses: the certificates a node
is given are causally complete and pairwise non-equivocating (these are C21 and C07), all nodes use the same gc depth
and sub-dag interval, and a restart finds a store that is causally complete above the recovered gc round. Findings:
a restart reads final scores in a window of 50 commits, enough for gc depths up to 100 (the configuration's maximum
is 50) - outside that window two nodes diverge (`C08_restart_outside_window_refuted`); a node that starts in the middle
of an epoch's history does not see every certificate committed (`C10_complete_history_refuted`).

**Gas, base fee, rewards (C17-C20; `GasModel.v`).** Machine arithmetic is explicit.

**Proposer and certifier (C29, C31; `PropModel.v`).** A proposal may happen at any time; payload, parents and timestamps
are arbitrary. Findings: an unreadable last-proposal record, or a parent round that goes down after a restart, lets a node
propose twice in a round; a re-proposed header whose certificate record is only in memory can produce a second
certificate after a crash.

**Certificate manager and fetched batches (C21, C22, C30; `SyncModel.v`).** HashSet walk orders are universally
quantified. Findings: the genesis-parents check of round 1 in `get_missing_parents` is dead code; the fetched path does not
check "already stored", so a certificate may be forwarded twice; an indirectly verified certificate's own signature is never
checked; a storage failure leaves the pending map already changed (`C21_failed_write_refuted`). Assumed: the certificate
manager is the only writer of the certificate store; the committed round is monotone within an epoch.

**Buffered file (C23; `FileModel.v`).** The operating system is a byte list per file; only a read-only handle may
see another handle append. 64-bit overflow of offsets is not modelled. A flush that fails part-way is modelled
separately (`df_flush_fail`), used for the pack's commit.

**Pack (C24; `PackModel.v`).** Value codec, zstd and CRC-32 are parameters (`codec_ok`: decode inverts encode, unzip
inverts zip, checksums are 32 bits). A crash keeps a prefix of the file at least as long as the last fsync covers; a
tail of garbage bytes (not a prefix) is covered by `C24_only_checked_values`: nothing that fails its checksum is
returned. Findings: `append` does not check the 16 MiB limit that `fetch` and iteration enforce
(`C24_oversize_record_refuted`); a failed flush inside `commit` does not put the pack in the failed state, so a retried
commit appends the buffer a second time, answers Ok and has lost the record (`C24_commit_retry_refuted`); a crash that
leaves fewer than 28 bytes makes every later open fail; a tail of 1 to 3 bytes ends iteration without an error; `raw_iter`
shares the operating-system cursor with its pack; unflushed records are invisible to iteration.

**Position index (C25; `PosModel.v`).** Records are fixed-width integers after a 26-byte header; the write buffer must
hold at least a header and a record (`wsz > 26`; the code uses 16384). Finding: a crash that leaves 1 to 25 header bytes
makes every later open fail (`C25_torn_header_refuted`). Not modelled: an unsynced truncate being undone by a crash.

**Digest index (C26; `HdxModel.v`).** Every constant, the hash, the split threshold and the drain order of the bucket
cache are parameters; the code's values are shown admissible (`C26_code_cfg_ok`; its threshold is taken in exact
arithmetic instead of f32, which only moves splits). Buckets are records, a checksum is the constructor of the slot; the
bloom filter is modelled bit by bit. Nothing writes `index.hdx` between syncs, so a crash outside `sync` restores the last
synced map; creation is taken to be durable; failing writes are not modelled. Findings, each with a run of the model: `len`
counts a key again once its old entry moved to an overflow record; a short or failed read of an overflow record ends the
walk without an error, so a stored key reads as NotFound; a failed split throws away the bucket's unsynced contents, so a
key reads as an older position; a stop inside `sync` (buckets written, header not) loses keys synced earlier.


**Gossip handler (C27; `GossipModel.v`).** Every message is a task cut where the code awaits or releases a lock; a run
is any interleaving of task steps, arrivals and publications by other tasks. The committee lookup may answer "unknown"
and `behind_consensus` either way at each step (its body is not modelled). The tie in `min_by_key` cannot occur
(sequence numbers differ), so map order is not modelled. Digest injectivity and duplicate-free committees are
hypotheses (`genv_ok`). The topic check and the certificate arm are not modelled; the certificate path is C28/C30.

**Epoch records (C32, C38; `EpochModel.v`, `EpochDbModel.v`).** Keys, digests and signatures are numbers; BLS and the
digest are parameters (`eenv_sound`: digests do not collide, an aggregate that verifies was signed by every listed key;
`agg_complete`: valid single signatures aggregate). A committee bitmap is the ascending list of its indexes. The true chain
(`true_chain`) is one record per epoch with less than a third faulty in each trusted committee, honest members signing
nothing else; downloads are unconstrained. The database is a list of records and a map of certificates over the pack and
indexes of C24 to C26 (start_epoch 0); whether each append or flush succeeds is chosen by the event, an append that fails
half way leaves nothing. Read failures (`CertifiedRecordError::Storage`) and polling deadlines are not modelled;
`partition_point` is the first index that fails the test. Findings: against one trusted committee of ten two different
shrunken committees can certify two records with disjoint quorums (`C32_different_committees_refuted`); a committee of one
never certifies its own record (`C32_one_member_refuted`); the error slot is shared by all callers
(`C38_shared_error_slot_refuted`); the recovery that logs "Over wrote expected epoch record" does not replace the record,
while `final_numbers` is overwritten, and every later true record is then refused
(`C38_recovery_does_not_replace_refuted`, `C38_divergent_record_sticks`).

**Next committee (C33; `ShuffleModel.v`).** The seeded generator is a function from the number of draws made and a bound
to a number below the bound (`random_range`; rejection sampling inside it is not modelled); `choose_multiple` is rand
0.9's reservoir. The registry is its list of validators; the EVM calls that read it, slashing and the pre-fork ABI are not
modelled. That both nodes use the same randomness is C16.

**Restart and leader counts (C34; `RecountModel.v`).** An output is its number, leader (epoch, round, author), number of
batches and closing flag; a block is the output that produced it (all blocks of an output commit in one transaction). The
consensus store is one list, the pack of an epoch being its sub-list; damage to the files is C23-C26. The slot files are
one epoch, written by a separate event. Outputs arrive numbered consecutively with increasing leader rounds and none after
the closing one (`next_output`). Findings: the pack opened at startup and the end of the replay both come from the slot
files' epoch, so a crash between saving the first output of an epoch and the background slot write makes startup count the
previous epoch's leaders (`C34_stale_hint_miscounts_refuted`) or skip a saved output (`C34_stale_hint_loses_output_refuted`).

**TEL precompile (C39; `TelModel.v`).** Storage slots are numbers; that the keccak-derived slots differ is the parameter
`slots_ok`. A call is one of the EVM's four kinds made by any frame; a frame that reverts leaves no trace and is omitted;
database errors are omitted; whether a balance addition would overflow is the parameter `ovf`. Around the precompile a
history contains arbitrary transfers and mints of native coin that do not start at the precompile's address. Findings: a
delegatecall from the governance safe's own code runs with its `msg.sender`, so the address check alone does not mean a
direct call (`C39_direct_call_only_refuted`); the shipped genesis does not seed the total-supply slot, so `totalSupply`
does not equal the sum of balances from genesis (`C39_unseeded_supply_refuted`), only its changes follow.

**Gas settlement (C40; `FeeModel.v`).** Gas and prices are bounded naturals and the u128 products are explicit. What
revm's validation has established before settlement is the hypothesis `valid_tx`. Finding: because the penalty grows with
the unused gas, a caller can lower its bill by wasting gas (`C40_using_less_never_costs_more_refuted`).

**Outputs and the consensus pack (C42; `OutModel.v`, `EpackModel.v`).** Outputs, their assembly from a sub-dag and the
worker's answer, the records written for one output and the reader that rebuilds an output are modelled function by
function; the batch and header digest functions are parameters. A pack is its record sequence with byte offsets, the
position index and the two digest indexes (as maps; their own structure is C26), each with a synced prefix. A crash keeps
any length of the data file at least the synced one, any number of index entries at least the synced ones and any subset
of digest entries; torn records are a separate segment kind. Format v0 and the adiri feature flag are left out.

**Subscriber (C41; `SubModel.v`).** One event per await point; the volatile task state, the broadcast channel and the
engine queue are dropped by a crash. Packs are used through C42 (log with persisted prefix). Taken as parameters: the
agreed sequence `G` and that Bullshark, given the last saved sub-dag of its epoch, goes on with the next one
(`resumes_after`); the epoch rule (`epochs_advance`: the first sub-dag at or past the boundary closes the epoch). The
engine's commit is synchronous and its queue lives in memory. A synced output delivered to an observer is required to be
the next of the chain (C44). Not modelled: broadcast lag (capacity 1000), pack pruning, backward mode changes of other
tasks. The excluded windows are listed in `good_event`; `C41_crash_points` characterises them and five `_refuted` theorems
show what happens in them.

**Stream import (C43; `ImpModel.v`).** The stream is an arbitrary list of decoded records; framing, CRC and timeouts show
up as a bad record. Both readers, the import loop, the metadata check and the install decision are modelled; the pack
being written is C42's log. Collision freedom is assumed only between streamed headers and the true headers of the epoch
(`no_collision`), and between their batches. Findings: the committee record of a stream is checked for its keys only, so a
peer chooses the execution addresses (`C43_addresses_refuted`); for epoch 0 there is no parent expectation
(`C43_epoch_zero_refuted`, and `C43_import_epoch_zero` says exactly what can happen); a header without certificates panics
the importing task (`C43_leaderless_panics_refuted`).

**Followers (C44; `FolModel.v`).** One event per await point; walk tasks, their reservations and the six-job limit, the
cache table, the tip and gap watches, the drain loop and the subscriber's save are modelled. A local lookup may miss what is
there (`seen`), never invents. Simplified: which pack answers for a number is not chosen by epoch (packs holding a number
hold the same output, C42/C43), timers and retries are events, the streaming of finished epochs' packs is `Import`. The
broadcast channel is unbounded and `Lag` drops its head. Findings: a walk whose floor is 0 reaches height 0, which no pack
holds, and stays there with its reservation until the process ends (`C44_walk_to_zero_waits`, reached in
`C44_example_walk_stuck`); a lagging subscriber with an imported pack open skips outputs silently
(`C44_lag_skips_an_output_refuted`); decoding uses the committee of the epoch guessed for the number, so an author whose
address changed is paid at the wrong one if the guess is off (`C44_wrong_committee_refuted`).

### C45 Bytes, digests and signatures (WireModel, WireSpec, WireProofs, Props_Wire)
Modelled: the BCS rules in use (little-endian integers, ULEB128 lengths with the canonical-form and size
checks, fixed and variable byte strings, sequences, options, no trailing bytes), the hand-written header
serializer with its fork-dependent eighth field, indexmap and BTreeSet decoding (insertion), batches, epoch
records, node records in both layouts with `decode_and_verify`, the preimages hashed for sub-dags, consensus
headers and results, the seed chain, and all eight kinds of message a validator's BLS key signs. Not modelled:
blake3 (an arbitrary function with 32-byte results), BLS (a verification predicate), curve checks on keys and
signatures, parsing of addresses, URLs and protobuf keys. "Collision" always means the two concrete encodings of
the two values at hand: a bare "some collision exists" would be true of every hash. Refuted and kept as theorems:
`C45_header_wire_unique_refuted`, `C45_sub_dag_digest_without_committee_refuted`; what is true instead is
`C45_sub_dag_digest` (same committee size) and `C45_sub_dag_digest_any_committee` (only one kind of confusion).
C43's collision-freedom hypothesis is about exactly these preimages.

### C46 Worker batches (BatModel, BatSpec, BatProofs 1-4, Props_Bat)
Modelled: `validate_batch` check by check, `build_batch` with its u64 sums and the pool iterator's skipping of marked senders,
the pool update, the retry loop and the accounting of the quorum waiter, the tables a worker writes (batch cache in one layered
database, availability records in another, each losing a suffix in a crash), report, seal, prefetch, synchronise with its
retries and partial failures, `request_batches` over arbitrary peers (a peer is any function from requests to frame
lists), the serving side with its frame bound, `fetch_for_primary`, and the network of all members with votes and
certificates as events. Ghost state: `g_lost` (crashed with unwritten cache entries), `g_seen` (batches that passed validation at
an honest member). Simplified: one worker id, one fee, one epoch (cache clearing at the epoch end is out); groups of
one header are synchronised one after the other; timeouts are a broken stream or a missing answer; the consensus chain
counts as durable (C42). Not modelled: gossip transport, peer scores beyond the penalty class, metrics.
Refuted and kept as theorems: `C46_REFUTED_valid_is_servable` (SYNC_FRAME_OVERHEAD of 1024 bytes does not cover the
length prefixes of more than some 500 transactions; the report RPC does accept such a batch),
`C46_one_batch_poisons`, `C46_REFUTED_builder_never_punished`, `C46_REFUTED_gas_limit_of_built`,
`C46_REFUTED_available_after_crash`, `C46_REFUTED_failure_kind`, `C46_REFUTED_claimed_worker`,
`C46_REFUTED_sync_all_or_nothing`.

### C47 Whole network (NetModel, NetSpec, NetProofs, NetProofs2, Props_Net)
Modelled: one list of events of all honest validators, each event one step of the component models (VoteModel, PropModel, the
certificate intake of SyncModel, the aggregator of CertModel); each validator's committee is the one its vote service runs
with. Faulty validators have no state: what they send is whatever the events contain. Assumed and visible in NetSpec:
unforgeability at the moment of use (a signature that verifies under an honest key was made before), no digest collision and no
digest cycle among the headers that occur, at most (n-1)/3 faulty keys per committee, empty vote and proposal tables at the
start, `quiet_start` for the proposer (C29 refutes the claim without it), and that a vote check reads a store filled by
accepted certificates. Not modelled here: when the manager passes an accepted certificate on to the DAG (C21), garbage collection of
the store (the set of ever accepted certificates is used, which is larger).

### C48 Latest-output record (LatModel, LatSpec, LatProofs, Props_Lat)
Modelled: the 16-byte slot encoding, reading with the checksum and the empty-file case, the choice on opening, the alternation, the
command queue and the background thread with partial writes, failing syncs and the extra sync at an epoch change, kills (page cache
kept) and machine crashes (any old or newer content, or bytes that do not check). Simplified: the channel has no capacity bound; a
failed seek is a write of zero bytes; directory entries are durable. C41 uses the result: a crash finds the last synced slot value or
the one update in flight.

### C49, C50 Peer table and scores (AMap, PeersModel, PeersSpec, PeersProofs 1-6, Props_Peers, Props_Scores)
Modelled: all of `AllPeers` that changes state (upsert with key rotation, trusted peers, penalties, status transitions, heartbeat, dial
timeouts, pruning with its bounded heap, forgiveness of members), `Peer`, `Score`, `BannedPeers`. A HashMap is an association list,
and the event EMoveFront makes every iteration order possible. Scores are integers, the decay is a parameter. Not modelled: dial reply
channels, connection direction, routability, the IP lists in actions (only logged), the `debug_assert`s.
The refuted claims are theorems: `C49_refuted_phantom_bans`, `C49_refuted_pending_ban_dropped`, `C49_refuted_identity_takeover`,
`C50_refuted_disconnect_ban_never_lifted` (for every number of heartbeats), `C50_refuted_stale_lock`, `C50_refuted_allowlist`,
`C50_refuted_ban_shed`, `C50_refuted_banned_stays_connected`.

### C51 Execution of committed outputs (ExecModel, ExecSpec, ExecProofs 1-6, Props_Exec)
Modelled: `execute_consensus_output` with all its exits (uneven batches, empty outputs, unknown leader, missing digest, index and
`inc_block` panics, failing build, persist with three attempts, rollback, failing announcement), payload, environment and context of a
block, pre- and post-execution calls, gas check, skipping of undecodable and invalid transactions, block assembly, the engine queue, and
restart: in-memory state, accumulator from the blocks and outputs of the running epoch, position to resume from. Parameters: world
state, one EVM transaction, the system calls, roots, hash, and the accumulator an epoch starts from (C19, C20 say what it is). Faults
are chosen freely per output: any build may fail, each persist attempt may fail before or after the static files, the channel may be
closed. Simplified: a root stands for what it commits to; forwarding of outputs to the engine is EvRecv in the order of the committed
sequence (C41); static files are reconciled with the database at start, as reth documents. The hypotheses on the outputs are the
record `committed`; `workers_fit` (batches name workers of their epoch) is needed for the head and for restarting, and the
counterexamples show it is needed. `C51_example_catches_up` discharges all hypotheses for a concrete two-epoch run.

### C52 Temporary-ban cache (CacheModel, CacheSpec, CacheProofs, Props_Cache)
`held dur n l` (CacheSpec) is the list of (peer, time of ban) computed from the history alone: newest last, at most n, expired
entries dropped at heartbeats. C52_exact says the code's list and set are it; the other theorems are consequences in plain terms
(`C52_held_for_duration`, `C52_gone_after_duration`). Not modelled: Instant arithmetic overflow.

### C53 Manager: bans and gates (MgrModel, MgrSpec, MgrProofs 1-5, Props_Mgr)
Events: connection established/closed/failed, dial requests, penalties, node records, committee changes, operator commands,
heartbeats, deliveries of queued events. The invariant (record J in the proofs) ties the ban cache to the blacklist modulo queued
events. `clean_run` (MgrSpec) excludes only silent lifts; the four refuted theorems are concrete runs. Not modelled: goodbye messages, metrics, gossipsub internals.

### C54 Manager: directory of known peers (MgrDirSpec, MgrProofs6, Props_MgrDir)
MgrDirSpec computes the provisioned, restored and member identities from the history only.

### C55 Limits, pruning, discovery (MgrProofs 7-10, Props_MgrLim)
Statements use `lists_exactly l P` (a duplicate-free enumeration) instead of model counters, `protected`, `is_open`, `no_better`,
`may_dial`, all defined in Props_MgrLim from the peer table. Not modelled: the f32 arithmetic of the limits.

### C56 Epoch votes end to end (VqModel, VqSpec, VqProofs 1-4, Props_Vq)
One event system joins the gate, the router, the collectors of C32 and the database of C38. Every theorem starts from a fresh
node and an arbitrary history. `just_closed` and `just_started` (Props_Vq) name the situations the liveness theorems start
from; C56_example_closed and C56_restart_revotes show that runs reach them.

### C57 Execution extensions (ExexModel, ExexSpec, ExexProofs 1-3, Props_Exex)
`story` (ExexSpec) says what the inputs amount to, `lossy` what may be lost and how it must be announced; every delivery theorem
relates what an ExEx received to these two.

### C58 The proposer's batch bookkeeping (PbModel, PbSpec, PbProofs 1-5, Props_Pb)
`accounted` (PbSpec) lists the places a digest may be in. The key lemma is that a tracked slot is only ever overwritten by the
same header (inv1), from which nothing is lost; `inv2` carries a set of headers with pairwise disjoint batches.

### C59 The certificate store and catching up (CfModel, CfSpec, CfStore, CfColl, CfRest, Props_Cf)
`stored` says, from the history alone, which certificates survive; `wanted` says, from the request alone, what was asked for.
CfStore proves every query against `stored`, CfColl the responder, CfRest requests, frames, peers and fetcher; C59_catch_up
composes requester and responder. Refuted theorems record where the code needs its assumptions.

### C60 Forwarding by a node outside the committee (FwModel, FwSpec, FwHosts, FwNames, FwWalk, FwBatch, FwNode, Props_Fw)
Address blocks are stated by base and prefix length on the address as a number, names by their last label, answers by the text that
occurs in them. `tx_ok` says what may have happened to one transaction given the answers and what was found unreachable before;
FwWalk proves it for one walk, FwBatch for the batch, FwNode the cache over all histories.

### C61 Execution-state snapshots (SnModel, SnSpec, SnMaps, SnPack, SnWrite, SnImport, SnRestore, SnLoad, SnExample, Props_Sn)
A pack is the list of its records, unreadable ones included; `pack_of` is its grammar. A datadir is its durable parts, and every
restore yields the list of durable states it goes through, so a crash is a prefix. Findings: re-running `db load-state` on a restored
datadir is refused but its clean-up deletes the restored-state floor (C61_floor_survives_refusal_refuted); a late failure on a
genesis-only datadir leaves restored data without floor (C61_failure_cleans_genesis_dir_refuted); verify accepts packs the import
refuses, against its comment (C61_verified_restores_refuted); footer slot/code counts unchecked (C61_footer_unchecked_refuted).

### C62 Offline pack validation (PvModel, PvSpec, PvProofs, PvWalk, PvReport, PvImport, PvAgree, Props_Pv)
The problems of a file are specified by splitting it at a header (`recs = a ++ RHeader h :: b`), independently of the walk's
variables. Agreement with the importer goes through inductive layouts of a file, one per format version. Findings: the two verdict
comments ("would import cleanly", "would be rejected by stream_import") are both false (C62_valid_imports_refuted,
C62_invalid_rejected_refuted).

### C63 The discovery store (KadModel, KadSpec, KadProofs, KadRec, KadProv, KadHist, Props_Kad, Props_KadX)
The specification reads the history of calls and answers only. Findings: C63_cap_refuted (counter lowered by a removal of an absent
key; libp2p's republication job makes such removals), C63_tolerant_records_refuted, C63_self_announce_refuted, C63_replay_refuted,
C63_workers_share_refuted.

### C64 Messages on the wire (CodecModel, CodecSpec, CodecProofs, CodecMsg, Props_Codec, Props_CodecX)
The specification is the format alone (prefixes, chunks). Findings: C64_many_encodings_refuted (trailing bytes of the body are not read,
skippable chunks; harmless unless bytes are compared), C64_huge_limit_refuted (limits over 3681400511; no configuration uses one).

### C65 Exchanges over a sync stream (SfrModel, SfrSpec, SfrProofs, Props_Sfr)
Finding: C65_request_encodings_refuted (the digest set is read from any order and with repetitions).

### C66 The gateway's rate limiter (RlModel, RlSpec, RlProofs, Props_Rl, Props_RlX)
The specification counts answers in windows of the history and knows no buckets. Findings: C66_clock_before_lock_refuted,
C66_refused_requests_starve_refuted, C66_untracked_refuted (the last is a documented trade-off).

### C67 Waiting for a certificate (NtModel, Props_Nt)
Each atomic action of the code is one step; the theorems speak of reachable states only. Finding: C67_gone_refuted.

## Print Assumptions

`tools/print_assumptions.py` writes a file that prints the assumptions of every theorem listed in `MANIFEST.json`
(compile it in `rocq/theories` with `coqc -Q . Verif`). For every one of them Coq answers `Closed under the global context`:
no axiom of the project, none of the standard library (in particular no functional extensionality, no classical axiom), no
section variable left open. The only axioms present in any loaded library are the seven of `Coq.ssr.ssrunder` (a module of
abstract equalities loaded with ssreflect through std++); no theorem uses them. No kernel check is switched off, there is no `Admitted`,
no functor, no module type.

## Findings, by theorem

Each is proved by a run or a construction of the model; the ones marked (assumption) show that a hypothesis of the positive
theorem is needed, rather than that a promise of the code fails.

* `C08_restart_outside_window_refuted`: Outside the window of C08 a restarted node, with the same chain, store and certificates as one that kept running, can commit a different leader at the same round (a run of 2792 rounds with sixty members).
* `C10_complete_history_refuted`: The full completeness claim of C10 ("every certificate in the leader's causal history above the gc horizon is in the sub-dag or at or below its author's committed round") is FALSE of the code: member 6's round-2 header is in the history of the third leader, its author's committed round is 1, and it is not in any commit: the traversal does not go through member 1's round-3 header, which was skipped because member 1's round-4 header was committed before.
* `C14_budget_refuted`: The documented budget is refuted: in a committee of four, two members that never get a point are both marked bad although the budget for 33 percent is one.
* `C24_oversize_record_refuted`: A record larger than the 16 MiB limit is accepted by append but can never be read back, and hides everything after it from iteration: append does not check the limit that fetch and iteration enforce.
* `C24_commit_retry_refuted`: A commit that fails part-way and is retried: the buffer is written again after the bytes that had already reached the file, both commits are over, the second one answered Ok, and the record is gone.
* `C25_torn_header_refuted`: The header of a new index is only buffered: a crash that leaves 1 to 25 of its bytes makes every later open fail, so the index has to be deleted by hand.
* `C26_length_is_not_key_count_refuted`: length counts a key again when its earlier entry has moved to an overflow record: two keys, length three
* `C26_unreadable_overflow_refuted`: an overflow record that cannot be read (as opposed to one with a bad checksum) makes a stored key NotFound
* `C26_failed_split_refuted`: A save that fails because the bucket being split has a damaged overflow record throws the bucket's unsynced contents away: the key saved as 12, and read back as 12, then reads as 11.
* `C26_crash_in_sync_refuted`: A stop between writing the buckets and writing the header loses keys that an earlier sync had made durable.
* `C27_many_numbers_refuted`: One member signs one result for each of many future numbers (twenty fresh ones after each honest signature): the honest result of number 5, signed and counted for all three honest members, is evicted each time and never published.
* `C29_unreadable_record_refuted`: What C29 needs: if the record cannot be read when the proposer starts, the node makes different headers for rounds it has already proposed (proposer.rs 193-216 logs the error and starts at round 0).
* `C29_lowered_parents_refuted`: ... and so does a proposer that is handed parents two rounds below its record after the consensus chain moved past it (the record is then ignored at start, and process_parents lowers the primary round).
* `C31_republish_race_refuted`: What the code's own argument misses (proposer.rs 370-378): a re-proposed header whose barrier was answered before the first task wrote its record lets the second task publish a certificate that is only in memory. A crash then loses the record and a different certificate for the same header is assembled and externalised.
* `C32_different_committees_refuted`: Against one trusted committee of ten, two records with different, both acceptable, shrunken committees can be certified by disjoint quorums: nobody signs twice.
* `C32_one_member_refuted`: A committee of one never certifies its own record: its own vote does not count as reaching the quorum.
* `C34_stale_hint_miscounts_refuted`: With a slot hint left from the previous epoch, the recount after a restart counts leaders of the previous epoch as leaders of the current one.
* `C34_stale_hint_loses_output_refuted`: With such a hint a saved, unexecuted output is not replayed after a restart.
* `C35_read_your_removes_refuted`: A removed key can still be read until the background thread has caught up.
* `C35_cache_mode_read_your_inserts_refuted`: In cache mode (full_memory = false) an overwritten value can reappear after it was replaced: the memory entry is dropped when the FIRST insert reaches the disk.
* `C35_sync_persist_not_durable_refuted`: An answered `sync_persist` (CaughtUp) says nothing about durability while a transaction is open.
* `C38_certified_stand_in_refuted`: The condition is needed: were a certificate stored under the stand-in's digest, the watermark would pass epoch 0.
* `C38_shared_error_slot_refuted`: With two callers the slot is shared: one caller's write fails, another caller is told, and the first caller's flush is answered Ok.
* `C38_recovery_does_not_replace_refuted`: The recovery that logs "over wrote" does not replace it, and the number-to-epoch table now disagrees with the records.
* `C39_direct_call_only_refuted`: Finding 1. "Governance only" is decided from msg.sender, which a delegate call inherits: while governance calls any contract (here 0xbad), that contract's code can mint, claim or burn in governance's name by a delegate call. The executing account is not the governance safe.
* `C39_unseeded_supply_refuted`: Finding 2. chain-configs/mainnet/genesis.yaml 46-49 and the testnet file give 0x7e1 code but no storage, so the supply word starts at 0 while other accounts own TEL: totalSupply() is not the sum of the balances, and governance cannot burn even coins it attaches to the call.
* `C40_using_less_never_costs_more_refuted`: Finding: because the penalty falls faster than the usage rises, wasting gas can lower the bill.
* `C41_slot_ahead_refuted`: Excluded crash 1. The slot is written before the pack is synced. If the operating system writes the slot page back first and the machine dies, the slot names an output the pack no longer holds; when the output is produced again, saving it is refused as old and the node shuts down, on every later attempt.
* `C41_stale_slot_refuted`: Excluded crash 2. The first output of epoch 1 (number 3) is in the synced pack, but the slot still names epoch 0. On restart the node looks for its latest header in epoch 0's pack, so it numbers the next sub-dag 3 again on the wrong parent; saving that is silently ignored, it is broadcast, and the node executes sub-dag 3 as number 3: sub-dag 2 is never executed.
* `C41_mode_change_skips_refuted`: Excluded mode change 1. The save task is dropped after the append and before the slot update; the output is in the pack, so the restarted subscriber goes on with the next one, but nobody hands it to the engine. A second mode change while the next one is in the channel forwards that one without the continuity check: an output is skipped.
* `C41_mode_change_gap_refuted`: Without the second mode change the continuity check sees the gap and shuts the node down.
* `C41_executed_before_durable_refuted`: Excluded mode change 2. The mode changes while the save waits for the pack sync: the output is already covered by the in-memory slot and readable, so it is executed although it is not on disk. If the machine dies now, the executed output is in no pack; the node takes the chain to be empty, and executes the output a second time.
* `C42_first_output_refuted`: The excluded crash. A pack's very first output is saved and a crash falls between the sync of the position index and the sync of the batch digests. The repair cuts the data file back but leaves the single index entry, so after every later start the pack claims an output it cannot read: the latest header is an error (and with it the startup lookup of the last header, state-sync/src/lib.rs 155-170), and saving that output again is silently ignored.
* `C42_torn_metadata_refuted`: A crash while a new pack's metadata is being written: the next open cannot read it, appends a second copy behind the torn one and carries on; outputs are saved and persisted, but the pack can no longer be opened as an existing one (storage/src/consensus.rs 357-364, every start once the slot file names this epoch).
* `C42_batch_lookup_refuted`: A batch that occurs in a persisted output can become unfindable by digest: a later output repeats it, its newer index entry survives a crash that cuts that output off, and the lookup then answers "absent" although the output that holds it is intact.
* `C42_low_number_refuted`: Without the lower bound on the number, a number below the start is stored as the first output ([saturating_sub]); the pack then holds an output at a number it does not have.
* `C43_addresses_refuted`: The execution addresses of the committee are not covered: a peer can substitute them, and the installed outputs pay other accounts.
* `C43_epoch_zero_refuted`: Epoch 0: streaming the (public) pre-genesis header before the genuine outputs is accepted; the pack answers number 1 with it and the genuine first output is gone.
* `C43_leaderless_panics_refuted`: A peer can crash the importing task: a header whose sub-dag has no header at all.
* `C44_lag_skips_an_output_refuted`: Refuted: the subscriber notices a message lost in the channel. With an imported pack of the epoch open, output 1 is lost and output 2 is saved as if nothing had happened.
* `C44_wrong_committee_refuted`: Refuted: a downloaded output is the true one whichever committee it was decoded with. An author whose address differs between two committees is paid at the wrong one if the reader guesses the wrong epoch for the number.
* `C45_header_wire_unique_refuted`: The bytes on the wire are not unique: parents out of order, repeated parents, or a batch listed twice are accepted and tidied up (bcs does not look at sets), so the digest must be computed, as the code does, from the decoded header and never from the bytes received.
* `C45_sub_dag_digest_without_committee_refuted`: Two well-formed sub-dags with different headers and scores have the same digest preimage, if the number of scores (the committee size) is not fixed.
* `C49_refuted_phantom_bans`: A request to disconnect a peer whose record is already banned (a peer-exchange goodbye arriving late, consensus.rs 1231, 1452) leaves one ban counted for no record; once there are as many of those as the limit, every new ban is pruned the moment it is recorded.
* `C49_refuted_pending_ban_dropped`: A peer about to be banned can turn the ban into a plain disconnect by sending a goodbye before the connection closes: the ban is not counted, nor its address.
* `C49_refuted_identity_takeover`: Whoever publishes a record naming another peer's network key takes over that peer's record: the victim's own identity is no longer known.
* `C50_refuted_disconnect_ban_never_lifted`: A ban following a low (not banned) score is never lifted: a peer disconnected for its score is recorded as banned with a score that is not a banned one, and no number of heartbeats changes that.
* `C50_refuted_disconnect_ban_happens`: Two peers on one address, disconnected for a low but not banned score, stay recorded as banned, and close the address to everyone, for ever.
* `C50_refuted_stale_lock`: The lock is counted from the last score update, which exempt peers do not get: a peer penalised right after leaving the committee is unbanned by the next heartbeat.
* `C50_refuted_allowlist`: The operator's allowlisting does not follow the identity: it is lost when the allowlisted peer comes back with a new network key, and gained by another identity that claims the old one.
* `C50_refuted_ban_shed`: A banned identity is shed by a record that names its network key under another identity.
* `C50_refuted_banned_stays_connected`: A banned identity that reconnects under a new key is recognised as banned, but stays connected: no further penalty asks for a disconnect.
* `C51_refuted_late_fault_not_retryable`: REFUTED as a claim about recovery: the retry exists for node-local provider faults, but after a fault behind the static-file append every retry hits the append check.
* `C53_refuted_blacklist_lasts`: Refuted: "a banned peer stays off the gossip network for the length of its ban". The temporary ban lasts 600 s, the reputation ban at least 1800 s; when the temporary ban expires the peer is announced as unbanned and leaves the gossip blacklist, although it is still recorded as banned and shut out.
* `C53_refuted_trusted_leaves_blacklist`: Refuted: "a peer leaves the blacklist once its ban is over". When the operator adds a banned peer as trusted, its bans are lifted without an Unbanned event: the peer is connected, in good standing, and stays on the gossip blacklist through every later heartbeat.
* `C53_refuted_late_member_forgiven`: Refuted: "members with no known network info yet are forgiven once discovered" (manager.rs 773-775). A temporarily banned peer that is discovered to be a committee member is forgiven in the peer store but stays in the temporary-ban cache: it can be neither dialed nor accepted.
* `C53_refuted_new_key_announced`: Refuted: "a peer recorded as banned is on the blacklist while its temporary ban lasts". A banned peer that turns up under a new network key is recorded as banned under that key too, but the new key is neither announced nor temporarily banned.
* `C54_refuted_never_regress`: Refuted: "kad-sourced updates can never regress a fresher entry" (manager.rs 945-951). For a peer the operator provisioned the timestamp is not compared: replaying its old signed record undoes the newer.
* `C55_refuted_max_peers`: Refuted: "max_peers is the maximum number of peers allowed to connect". The new connection is counted before the comparison, so with max_peers = 3 the third incoming peer is already sent away.
* `C55_refuted_second_connection`: Refuted: "a connection that was accepted is not given up because of the limit". A peer that is already connected and opens a second connection while the table is full loses both and is temporarily banned: the limit is checked without looking at earlier connections.
* `C55_refuted_discovery_bound`: Refuted: "the discovery table never holds more than its limit": what a discovery query returns is taken in without a bound until the next heartbeat.
* `C56_old_vote_crowds_out_refuted`: A valid late vote for an old, never certified epoch can cost the current one: it opens a queue, votes that are not for the next epoch after it are dropped, and they stay remembered as seen, so the same votes sent again are ignored. Here all four members vote for record 2, everything is delivered, and the collector has only this node's vote.
* `C56_early_vote_charged_refuted`: While a node still holds its stand-in for epoch 0, honest votes on the real record of epoch 0 are charged a penalty; for any other epoch a vote that comes early is dropped for free.
* `C56_record_skipped_refuted`: The router sees only the last record: if two epochs close before it looks, the first gets no collector and no vote of this node.
* `C56_unflushed_close_refuted`: Without the flush, two different votes for one epoch can go out: the append worked and the flush failed, the closing tried again finds the record and signs it, a crash loses it, and another record is built and signed.
* `C56_epoch0_signed_twice_refuted`: Epoch 0 is built again while it is uncertified, so a different rebuilt record is signed although another one is on disk.
* `C57_first_gap_refuted`: Blocks lost before the manager's first commit are not announced: there is nothing to compare with.
* `C57_below_start_refuted`: An ExEx that is already at the tip when it subscribes gets buffered blocks below its start again: an empty replay leaves the height filter without a baseline.
* `C57_seam_refuted`: If the tip lies inside a commit of several blocks, its first blocks come twice.
* `C57_floor_regresses_refuted`: The last report wins, not the highest: the published height can go down.
* `C57_last_report_lost_refuted`: A report made while sixteen wait is lost: if it was the last one, the floor stays behind for good.
* `C58_report_overtakes_refuted`: Without the assumptions of C58_committed_once a batch can be in two headers that are both reported as committed. Here the first report arrives before the loop has registered the header it names.
* `C58_resend_after_commit_refuted`: Here the last header is committed, sent again after the maximum delay, and then given up.
* `C58_restart_genesis_parents_refuted`: A proposer that restarts at published round 7 without a recorded header builds a round-8 header on the genesis certificates, which no peer can accept.
* `C58_timer_in_flight_refuted`: The timer flag is not cleared when the sending completes: if the maximum delay passes while a header is being sent, the same header is sent again at once, although it has only just gone out.
* `C59_equivocation_refuted`: Two certificates of one author and round: deleting either hides the other from lookups by author and round.
* `C59_epoch_clear_refuted`: The epoch's end clears the three tables in three transactions. A crash after the first leaves index rows that point to nothing, and the start-up read of the store fails (the node then panics); if no clear ran, the old epoch's certificates are read back into the new one. After all three, the store is empty.
* `C59_gap_refuted`: The responder forgets an author whose next certificate is collected while it streams: later ones it holds, which were asked for, are not sent.
* `C59_bound_wrap_refuted`: A lower bound of u32::MAX wraps to round 0 in a release build, and certificates at or below the bound are sent.
* `C60_lift_refuted`: No run of a batch ever lifts a demotion: an endpoint it found unreachable is not asked again, so the delivery that would lift it does not happen (forward.rs 1001-1016 is dead code; the text at 583-590 and 953-955 promises it).
* `C60_cooldown_refuted`: Not so if its validator withdraws the advertisement for one batch: then it is used again at once.
* `C60_pool_refuted`: A transaction put back before a prune that comes late is in no pool although it was delivered to nobody.
* `C60_abort_refuted`: Nor does the task's abort at the end of an epoch put anything back it has not come to.
* `C61_floor_survives_refusal_refuted`: Repeating the command on a restored datadir is refused, but the refusal's clean-up removes the floor of the datadir that was there: afterwards older blocks silently read as the empty state.
* `C61_footer_unchecked_refuted`: Verification looks at neither the footer's slot and code counts nor anything after the footer.
* `C61_verified_restores_refuted`: ... nor at the order of the accounts, which the import requires: a pack can verify and yet restore nowhere.
* `C61_failure_cleans_genesis_dir_refuted`: On a datadir that had only genesis, a failure after the state was restored leaves all of the restored chain data behind and no floor: the datadir stands at the block, cannot be restored into again, and its older blocks read as empty.
* `C62_valid_imports_refuted`: "Valid: the pack would import cleanly" does not hold: packs the validator has nothing to say about and the importer refuses. Batches before the first header, or without any header, under version 1; a header of another epoch; an author outside the committee; a sub-dag without a header, on which the importer panics; and, as the command line tool calls it (no previous record), an epoch that does not continue the chain.
* `C62_invalid_rejected_refuted`: "Invalid: the pack would be rejected" does not hold either: the importer accepts, and drops, a header that follows the last one and repeats a number already stored; and in epoch 0 the pre-genesis header in front.
* `C63_cap_refuted`: "Should be safe since [remove] saturates": the counter still goes down for a record that is not there, as libp2p's own republication job does after an eviction, and then the cap does not hold at all: any number of records can be stored.
* `C63_self_announce_refuted`: "Including its own self-provide": the refresh of a stored announcement always succeeds, but the first one need not: as many peers as the per-key cap can announce the node's own key first, and the node is then not listed, and not republished, as its provider.
* `C63_tolerant_records_refuted`: "The tolerant start-up load the records table already gets": a record row that does not decode stops every start, at any later time too, since nothing removes it.
* `C63_replay_refuted`: "Prevents replay attacks": once the newest record of a key has expired, an older one of the same peer is accepted again.
* `C63_workers_share_refuted`: The networks of two workers have protocols of their own but one store: a record of one is served, replaced and removed by the other.
* `C64_many_encodings_refuted`: A message has many encodings: a block can be stored or compressed, skippable chunks can stand anywhere, and what follows the announced length in the body is not read.
* `C64_huge_limit_refuted`: With a limit whose longest compression is no 32-bit number (above 3681400511 bytes) a writer sends messages that no reader accepts. No configuration has such a limit.
* `C65_request_encodings_refuted`: A worker's request for batches is read from digests in any order and repeated, so it has more than one encoding.
* `C66_clock_before_lock_refuted`: The clock is read before the lock is taken: a request that takes the lock late sets the refill time back, and the same time refills the bucket twice.
* `C66_refused_requests_starve_refuted`: A request that its client's limit refuses has already been charged to the whole gateway, so one client that keeps asking shuts out the others although almost nothing is let through.
* `C66_untracked_refuted`: A client that comes when the table is full is not limited at all (documented; without a gateway limit nothing bounds it).
* `C67_gone_refuted`: A waiter can be handed a certificate that garbage collection has removed from the store meanwhile (and, the notification being sent inside the transaction, one whose write is not committed yet).
