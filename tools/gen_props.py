#!/usr/bin/env python3
"""Writes /verif/properties.jsonl from the table below (one JSON object per line)."""
import json, os
P = []
def p(title, statement, quantifier, why, anchors):
    P.append(dict(id="C%02d" % (len(P)+1), title=title, statement=statement,
                  quantifier=quantifier, why_tests_cant=why, anchors=anchors))

p("Quorum intersection",
  "In any committee of N validators, two groups of committee members that each reach the quorum threshold share at least f+1 members, where f = floor((N-1)/3) is the tolerated fault count; so whenever at most f members are faulty the two groups share an honest member. The quorum threshold equals N-f and is at most N, so the honest members alone can reach it.",
  "every committee (any size N >= 2, any key set), every pair of member groups",
  "Thresholds are rounded integer formulas; a test samples a few sizes, intersection must hold for every size and every pair of subsets.",
  ["crates/types/src/committee.rs: CommitteeInner::calculate_quorum_threshold, calculate_validity_threshold, quorum_threshold"])
p("Validity threshold contains an honest member and meets every quorum",
  "Any group of committee members that reaches the validity threshold contains more than f members (so at least one honest one), and it intersects every group that reaches the quorum threshold.",
  "every committee, every pair of groups",
  "Same rounding issue: needs all sizes and all subsets.",
  ["crates/types/src/committee.rs: calculate_validity_threshold, reached_validity"])
p("A certificate is only assembled from a quorum of distinct, verified committee votes",
  "Whatever sequence of votes is fed to the vote aggregator for a header, it returns a certificate only when the votes it has accepted come from pairwise distinct committee members whose signatures verify over this header's digest and whose combined voting power reaches the quorum threshold; a vote from an authority that was already seen, for another digest, from a non-member or with a bad signature is rejected and never adds weight.",
  "every committee, header and every sequence of (possibly malicious, repeated, reordered) votes",
  "Votes arrive in any order with any duplication from Byzantine peers; tests try a handful of sequences.",
  ["crates/consensus/primary/src/aggregators/votes.rs: VotesAggregator::append", "crates/types/src/primary/certificate.rs: Certificate::new_unverified"])
p("Certificate signer bitmap is faithful",
  "The certificate built from a set of votes records exactly the voters: decoding its bitmap against the same committee returns exactly the public keys that voted, in key order, with weight equal to their number; and for ANY bitmap, the weight computed during verification equals the number of distinct committee keys that the aggregate signature is checked against, so a peer cannot inflate weight with out-of-range or repeated indexes.",
  "every committee, every set of votes, every (adversarial) bitmap",
  "The adversary chooses the bitmap; the index walk must be right for all of them.",
  ["crates/types/src/primary/certificate.rs: Certificate::new_internal, signed_by, validate_and_verify, verify_cert"])
p("Parents are handed to the proposer only with a quorum, each origin once",
  "For each round the certificate aggregator counts each origin at most once however often its certificates are appended, and releases parents only when distinct committee origins with quorum voting power have been appended; no released certificate is released twice, and none is lost.",
  "every committee and every sequence of certificates over all rounds, with garbage collection at any point",
  "Ordering and duplication of incoming certificates is schedule dependent.",
  ["crates/consensus/primary/src/aggregators/certificates.rs: CertificatesAggregatorManager, CertificatesAggregator::append"])
p("A node never signs two different headers for the same author, epoch and round, even across crashes",
  "For every sequence of vote requests, cache hits, storage failures, crashes and restarts, two votes the node returns for headers with the same author, epoch and round are for the same header digest. A vote is recorded durably before it is returned, and every newly recorded vote is for a strictly newer (epoch, round) of that author than the one recorded before it. (An old vote may be returned again: the repeat of a cached answer.)",
  "every history of vote requests (interleaved across authors), every crash point between write, persist and reply, every persist failure",
  "Crash points and interleavings cannot be enumerated by tests.",
  ["crates/consensus/primary/src/network/handler.rs: RequestHandler::vote, vote_inner", "crates/storage/src/stores/vote_digest_store.rs"])
p("No two certificates for one slot",
  "With at most f Byzantine members, two certificates that both pass verification for the same author, epoch and round carry the same header, given that honest members vote at most once per slot.",
  "every committee, every set of at most f Byzantine members, every pair of verified certificates",
  "Byzantine behaviour is arbitrary.",
  ["crates/types/src/primary/certificate.rs: validate_and_verify", "crates/consensus/primary/src/network/handler.rs: vote_inner"])
p("Consensus agreement: commit sequences of two nodes are prefix-comparable",
  "Any two nodes that process certificates of the same non-equivocating, quorum-linked DAG, each in its own (causally closed) arrival order, output sequences of committed sub-dags one of which is a prefix of the other: same leaders, same certificates in the same order, same reputation scores, same timestamps and same randomness.",
  "every DAG, every committee, every pair of arrival orders, every leader-schedule change, every gc depth",
  "The set of asynchronous schedules is infinite; randomised tests sample it.",
  ["crates/consensus/primary/src/consensus/bullshark.rs", "crates/consensus/primary/src/consensus/utils.rs: order_dag", "crates/consensus/primary/src/consensus/leader_schedule.rs"])
p("No certificate is committed twice",
  "Over the whole life of a consensus state no certificate appears in two committed sub-dags, nor twice in one; and for each authority the committed rounds only move forward from one sub-dag to the next.",
  "every sequence of processed certificates",
  "Depends on the interplay of per-authority watermarks, gc and ordering for arbitrary DAGs.",
  ["crates/consensus/primary/src/consensus/utils.rs: order_dag", "crates/consensus/primary/src/consensus/state.rs: ConsensusState::update"])
p("Sub-dag shape: leader last, rounds sorted, causal history complete",
  "Every committed sub-dag ends with its leader, which is the only certificate of its round; certificates are sorted by round; every certificate in it is reachable from the leader through certificates of the sub-dag; and every parent, above the gc horizon, of a committed certificate is committed with it or its author was already committed at that round or later. (The stronger claim, that the leader's whole causal history above the horizon is committed, is false and refuted by a witness.)",
  "every reachable consensus state and every commit",
  "Requires reasoning about every DAG.",
  ["crates/consensus/primary/src/consensus/utils.rs: order_dag", "crates/types/src/primary/output.rs: CommittedSubDag::new"])
p("Leader rounds and commit timestamps are monotone",
  "Successive committed sub-dags have strictly increasing even leader rounds and non-decreasing commit timestamps, and each commit timestamp is at least the leader's own creation time.",
  "every sequence of processed certificates",
  "Byzantine leaders may choose timestamps arbitrarily.",
  ["crates/consensus/primary/src/consensus/bullshark.rs: commit_leader", "crates/types/src/primary/output.rs: CommittedSubDag::new"])
p("A leader is committed only with f+1 support or through a chain of linked leaders",
  "Each committed leader is the scheduled leader of its round and either has parents-votes of validity-threshold power in the next round in the local DAG or is linked by a path of certificates to a later committed leader of the same call that has.",
  "every reachable state",
  "Every DAG and every order of arrival.",
  ["crates/consensus/primary/src/consensus/bullshark.rs: commit_leader, order_leaders, linked"])
p("Leader swap table is well formed",
  "For all final reputation scores the table never contains an authority that is both good and bad, always has a good node when it has a bad one (the assertion never fires), only contains committee members, and the loops that build it terminate; hence the leader of every even round is a committee member, never a bad node, and is the same on every node with the same scores.",
  "every committee, every score vector, every threshold in 0..33, every even round",
  "Score vectors are unbounded.",
  ["crates/consensus/primary/src/consensus/leader_schedule.rs: LeaderSwapTable::new, swap, LeaderSchedule::leader"])
p("Bad-node budget",
  "The documented budget (no more than bad_nodes_percent_threshold percent of the committee, at least one, is ever marked bad) is kept unless more members than the budget have no point at all; in that case exactly the members without a point are bad. A member with a point is therefore only ever bad within the budget, and at least one member is never bad. The documented budget without the exception is refuted by a run, and so is any bound below all-but-one.",
  "every committee and score vector",
  "All score vectors.",
  ["crates/consensus/primary/src/consensus/leader_schedule.rs: LeaderSwapTable::new doc comment"])
p("Reputation scores always cover exactly the committee",
  "Every reputation-score map stored in a committed sub-dag has exactly the committee's authorities as keys, so the authority-count invariant error is unreachable; a score counts exactly the sequenced certificates of round leader+1 that reference the previous leader.",
  "every reachable state",
  "All histories and schedule windows.",
  ["crates/consensus/primary/src/consensus/bullshark.rs: resolve_reputation_score", "crates/types/src/primary/reputation.rs"])
p("Seed chain: randomness is a fold over the committed prefix and survives restart",
  "Within an epoch the randomness of the n-th commit is the fold of the epoch root with (leader round, seed signature) of commits 1..n in commit order; recovering the chain anchor from the stored latest sub-dag after a restart at any commit gives the same subsequent values as no restart, and any disagreement between the two recovered cursors is an error rather than a re-root.",
  "every commit sequence and every restart point",
  "All histories and crash points.",
  ["crates/types/src/primary/seed_chain.rs", "crates/consensus/primary/src/consensus/state.rs: resolve_seed_chain_anchor", "crates/types/src/primary/output.rs: CommittedSubDag::new"])
p("Nonce and worker id encodings are lossless",
  "Packing (epoch, round) into the 64-bit nonce and unpacking returns the same pair for all 32-bit values and preserves lexicographic order; packing (batch index, worker id) in the block difficulty and reading the worker id returns it for every 16-bit id.",
  "all 32-bit epochs and rounds, all batch indexes and 16-bit worker ids",
  "2^64 inputs.",
  ["crates/types/src/primary/header.rs: Header::nonce", "crates/types/src/helpers.rs: deconstruct_nonce", "crates/types/src/gas_accumulator.rs: worker_id_from_header"])
p("Base fee update never overflows and moves at most one eighth",
  "For all u64 inputs the next base fee is computed without overflow, is never below the protocol minimum, changes by at most 1/8 of the (clamped) current fee (at least 1 upward when over target), does not change at target, never falls when usage is above target, never rises (beyond the floor) when usage is below it, and is monotone in gas used.",
  "all u64 triples (fee, used, target)",
  "2^192 inputs and u128 intermediate arithmetic.",
  ["crates/types/src/gas_accumulator.rs: compute_next_base_fee_eip1559, SAFE_MAX_BASE_FEE, next_base_fee_for_config"])
p("Base fee recorded at epoch close is the fee read at epoch entry",
  "For every worker configuration, the fee computed at close, stored in the on-chain data word and read back at entry is the same value for EIP-1559 workers, and static workers always get the configured fee whatever the data word contains; an EIP-1559 word wider than 64 bits is an error, never truncated.",
  "every config, fee, gas usage and data word",
  "All inputs.",
  ["crates/types/src/gas_accumulator.rs: entry_fee_for_worker, next_base_fee_for_config"])
p("Gas and reward accumulation is exact",
  "After any sequence of operations the per-worker totals are the sums over the non-empty blocks of that worker since the last clear or (re)creation of its slot; growing keeps all existing slots, and shrinking only drops the removed ones; the withdrawals generated at epoch end distribute exactly the number of leader commits of committee members, summed by execution address, independent of order.",
  "every sequence of inc_block, inc_leader_count, clear, set_num_workers",
  "All operation sequences.",
  ["crates/types/src/gas_accumulator.rs: GasAccumulator, RewardsCounter"])
p("Certificates reach consensus in causal order",
  "Whatever order verified certificates arrive in, and whenever garbage collection advances, a certificate is stored and forwarded to consensus only after all of its parents above the gc horizon have been stored; it is forwarded at most once per arrival, never while pending, and a pending certificate is released as soon as its last missing parent is accepted or collected.",
  "every sequence of certificate batches and gc rounds, every hash-set iteration order",
  "Arrival order is adversarial.",
  ["crates/consensus/primary/src/state_sync/cert_manager.rs", "crates/consensus/primary/src/state_sync/pending_cert_manager.rs"])
p("Pending-certificate bookkeeping never breaks",
  "The pending map and the missing-parent index stay mutually consistent under every sequence of operations, so the 'pending certificate not found' and 'parents mismatch' errors are unreachable, and the gc sweep terminates with no missing parent at or below the gc round.",
  "every sequence of operations",
  "All histories.",
  ["crates/consensus/primary/src/state_sync/pending_cert_manager.rs"])
p("Buffered file behaves like a byte array",
  "Any sequence of writes, flushes, seeks, reads and truncations on the buffered data file returns the same bytes and lengths as the same sequence on a plain in-memory byte array, whatever the buffer sizes and boundaries.",
  "every operation sequence and all offsets and lengths",
  "Buffer boundary interactions are combinatorial.",
  ["crates/storage/src/archive/data_file.rs: DataFile"])
p("Pack log: appended records are read back, corruption is detected, never misread",
  "Every record appended to a pack is returned unchanged by fetch at the returned position and by iteration in insertion order; appending never changes earlier records; after truncation to any record boundary exactly the preceding records remain; after a crash that cuts the file anywhere past its header, iteration yields exactly the complete records and then reports the damage (unless fewer than 4 bytes of the torn record are left); a record whose append was followed by a successful commit survives every later crash; whatever bytes the file holds, no value comes out whose length prefix and checksum do not match. Records above the 16 MiB read limit and commits retried after an I/O error are excluded.",
  "every sequence of appended values and every crash (truncation) point",
  "All crash points.",
  ["crates/storage/src/archive/pack.rs", "crates/storage/src/archive/pack_iter.rs"])
p("Position index is an append-only array",
  "The i-th saved value is returned by load(i), saving out of order is refused, truncation to key k keeps exactly the entries 0..k, iteration forward and backward yields the entries in order, and reopening after a torn final record drops only that record.",
  "every operation sequence, every crash length",
  "All crash points and sequences.",
  ["crates/storage/src/archive/position_index/index.rs"])
p("Digest index is a map that survives bucket splits",
  "Looking up any key in the digest index returns the position saved for it and nothing for a key never saved, whatever the hash function, collisions, overflow chains and number of bucket splits; the bloom filter never hides a stored key.",
  "every hash function, every insertion sequence of any length",
  "Splits happen after thousands of inserts and depend on hash values.",
  ["crates/storage/src/archive/digest_index/index.rs", "crates/storage/src/archive/digest_index/bloom.rs"])
p("Consensus-result gossip is trusted only with f+1 distinct signers and cannot be crowded out",
  "A gossiped consensus result is published only when more than one third of the epoch's committee (so at least one honest member) signed exactly that result; each signer counts once; the tally map never exceeds its cap; and equivocating members can hold at most two tallies per consensus number, so with at most f of them an honest result's tally for that number is not evicted by them.",
  "every message sequence, every committee size",
  "Adversarial floods.",
  ["crates/consensus/primary/src/network/handler.rs: process_gossip (PrimaryGossip::Consensus)"])
p("Header admission rules",
  "A vote is only produced for a header of the current epoch with round at least 1 and not beyond the gc window, from a committee member that is the requesting peer, with at most N parents all from the previous round, same epoch, distinct authors, quorum weight, none created after the header, at most the permitted number of batches and only known worker ids.",
  "every header, parent set and node state",
  "All adversarial headers.",
  ["crates/consensus/primary/src/network/handler.rs: vote_inner", "crates/types/src/primary/header.rs: Header::validate"])

p("A node never proposes two different headers for one round, across restarts",
  "Over any history of proposals, parent arrivals, timeouts, write failures, crashes and restarts in which the last proposed header can be read back at startup and the proposer is never handed parents more than one round below the header it last recorded, the headers a node hands to the certifier for one (epoch, round) are all identical, rounds of the current epoch never go backwards, and a header handed out survives a crash at any later point. (Without the first or the second condition the claim is false of the code.)",
  "every event history with crashes at any point",
  "Crash points and background-writer schedules are unbounded.",
  ["crates/consensus/primary/src/proposer.rs: Proposer::new, propose_next_header, store_and_send_header, process_parents, run"])
p("Indirectly verified certificates are backed by a directly verified one",
  "When a batch of fetched certificates is processed, every certificate that ends up in a verified state either had its own aggregate signature checked or is an ancestor, through parent digests inside the batch, of a certificate whose signature was checked; certificates beyond the leaf/interval selection that are not such ancestors are checked directly or rejected.",
  "every batch of fetched certificates",
  "All batches and parent graphs.",
  ["crates/consensus/primary/src/state_sync/cert_validator.rs: verify_collection, mark_verified_indirectly"])
p("One certificate per own header, even across crashes",
  "Over any history of proposals, crashes, restarts and epoch changes: once the task that assembled a certificate has released it, every certificate the node externalises later for that header is the same certificate, and it is found on disk after a crash. If stored certificates are only published again once on disk, at most one certificate is ever externalised per header. (Without that condition the code can externalise two: a re-proposal may publish a record that is still only in memory.)",
  "every history",
  "Crash points.",
  ["crates/consensus/primary/src/certifier.rs: spawn_header_proposal, propose_header"])
p("Epoch records need a super quorum of their committee",
  "An epoch record certificate verifies only if more than two thirds of the committee listed for that epoch signed exactly that record, each once; two records of one epoch that both verify share an honest signer when less than a third is faulty.",
  "every record, bitmap and committee size",
  "All sizes and bitmaps.",
  ["crates/types/src/primary/epoch.rs: EpochRecord::verify_with_cert, super_quorum"])
p("New committee selection is a deterministic, duplicate-free choice",
  "The next committee returned at an epoch boundary is a duplicate-free subset of the eligible validators of the configured size, depends only on on-chain state and the epoch randomness, and every node computes the same set.",
  "every validator list and randomness",
  "All inputs.",
  ["crates/tn-reth/src/evm/block.rs: shuffle and committee assembly"])
p("Restart recounts leaders exactly",
  "At every moment of a node's life, across any number of crashes and restarts, the reward counter shows for every authority exactly the number of outputs of the current epoch it led among those processed. A restart never aborts, counts exactly up to the output behind the chain tip and replays exactly the saved outputs after it, so after the replay chain and counters are those of a node that did not crash. This needs the resume slot files to name the epoch of the last saved output; in the window before that (asynchronous) write it is false: leaders of the previous epoch are counted, and a saved output is not replayed.",
  "every interleaving of deliveries, executions, slot writes, epoch closings and crashes",
  "All crash points, any number of crashes, any history.",
  ["crates/node/src/manager/node.rs: catchup_accumulator", "crates/storage/src/consensus_pack.rs: count_leaders", "crates/state-sync/src/lib.rs: get_missing_consensus", "crates/node/src/manager/node/start_epoch.rs: replay_missed_consensus", "crates/engine/src/payload_builder.rs: execute_consensus_output", "crates/storage/src/consensus.rs: ConsensusChain::new, LatestConsensus"])
p("An acknowledged write survives crashes",
  "For the in-memory-fronted epoch database: once persist() returns success, every write issued before it survives any later crash or I/O failure unless overwritten by a later write; a lost write makes every later persist() fail until restart; inserted values are read back at once.",
  "every interleaving of client calls and the background writer, every I/O failure and crash point",
  "Interleavings and crash points are unbounded.",
  ["crates/storage/src/layered_db.rs: LayeredDatabase, db_run, end_txn, persist"])
p("Ordering never fails on certificates of a correct DAG except for a missing parent",
  "Feeding any certificate of the epoch's DAG to the ordering engine, in any order, either succeeds or is refused with a missing-parent error that leaves the state unchanged: it never reports an equivocation, an invariant violation, a panic, and its retry and traversal loops end.",
  "every DAG, every delivery order, every restart",
  "The panics and invariant errors are guarded by facts about every reachable state.",
  ["crates/consensus/primary/src/consensus/bullshark.rs: process_certificate, commit_leader", "crates/consensus/primary/src/consensus/state.rs: try_insert_in_dag, check_parents"])
p("A leader with enough support is committed at once",
  "After the ordering engine accepts a certificate of an odd round r+1 that is new, the even round r is settled: it is committed, or the leader scheduled for r is not in the local DAG, or its supporters among the accepted certificates of round r+1 do not reach the validity threshold.",
  "every DAG, delivery order and schedule change",
  "The retry after a schedule change must reach the same round again; needs every history.",
  ["crates/consensus/primary/src/consensus/bullshark.rs: process_certificate, commit_leader, update_leader_schedule"])
p("The epoch record database keeps what it stored, reports lost writes, and its scan is exact",
  "Records are stored without gaps and, like certificates, never change while the process runs; a certified read returns a record only with a verifying super-quorum certificate; after any history of writes, failures, scans and restarts the resumed scan for a missing certificate answers what a full scan would; when a flush is answered Ok every earlier failed write has been reported to some caller; a consensus number maps to the epoch whose range holds it. (The error slot is shared by all callers, and a locally built wrong record is never replaced: both have refutations.)",
  "every history of calls, actor turns, I/O failures and restarts",
  "Interleavings, failures and histories are unbounded.",
  ["crates/storage/src/epoch_records.rs: EpochRecordDb, run_db_loop, Inner", "crates/node/src/manager/epoch_votes.rs: manage_epoch_votes"])

p("Native token issuance: supply, authority and timelock",
  "After any history of calls to the TEL precompile, transfers and blocks, the recorded total supply and the sum of all balances have moved by the same amount, and the Transfer events account for the supply exactly. Only calls in governance's name change supply, pending mints or roles (in a faucet build also faucet mints by accounts governance granted and has not revoked since). On mainnet a claim pays governance exactly the amount of the last successful mint, at least seven days after it, at most once; a mint of zero cancels. Failed calls and static frames change nothing; the only call that takes value is burn, and the value and the burned amount are accounted to the wei.",
  "every history of calls of any frame kind (call, callcode, delegatecall, staticcall), calldata, value, gas, block times and transfers",
  "All histories and all calldata; unit tests cover a few call sequences.",
  ["crates/tn-reth/src/evm/tel_precompile/mod.rs: telcoin_precompile", "crates/tn-reth/src/evm/tel_precompile/burnable.rs: handle_mint, handle_claim, handle_burn, handle_total_supply", "crates/tn-reth/src/evm/tel_precompile/faucet.rs: handle_mint_faucet, handle_grant_mint_role, handle_revoke_mint_role", "crates/tn-reth/src/evm/tel_precompile/helpers.rs: balance_incr, balance_decr"])
p("Gas settlement conserves value and the over-limit penalty is bounded",
  "For every executed transaction the up-front debit equals what the sender gets back, the beneficiary's priority fee, the collector's base fee and the penalty, whichever of these accounts coincide. The penalty follows the documented integer formula for all 64-bit gas figures without overflow, is at most the unused gas, zero from 10% usage on or for limits up to 210000, and never grows with usage. System calls move nothing.",
  "every gas limit, usage, refund, price, base fee and choice of accounts",
  "All 64/128-bit values; consensus forks on any disagreement.",
  ["crates/tn-reth/src/evm/handler.rs: reimburse_caller, reward_beneficiary", "crates/tn-reth/src/evm/utils.rs: calculate_gas_penalty"])

p("Every node saves and executes the agreed outputs once, in order, across crashes and epochs",
  "Let G be the agreed sequence of committed sub-dags. For every interleaving of receiving, fetching, saving, syncing, broadcasting, executing, mode changes, epoch changes, kills and restarts (outside the windows named below): the k-th output a node saves and the k-th output it executes is the output of G(k), with number k+1, the hash of output k as parent and exactly the batches its headers name; nothing is executed that a crash could remove from the consensus packs; the node never refuses its own chain and always comes up again. Two nodes agree on every output both executed. The excluded windows are exact and each is refuted by a run: crash with the slot file ahead of the pack, crash with the slot naming the previous epoch, mode change in the middle of a save.",
  "every history of events of one node, every crash point and surviving slot value, any number of epochs and restarts",
  "Interleavings, crash points and lengths are unbounded.",
  ["crates/consensus/executor/src/subscriber.rs: run_subscriber, handle_consensus_output, fetch_batches", "crates/storage/src/consensus.rs: save_consensus_output, persist_current, LatestConsensus, new_epoch", "crates/state-sync/src/lib.rs: save_consensus, last_consensus_parent, get_missing_consensus", "crates/node/src/manager/node/run_epoch.rs: wait_for_epoch_boundary, check_output_continuity", "crates/node/src/manager/node/close_epoch.rs: send_leftover_consensus_output_to_engine", "crates/node/src/manager/node/start_epoch.rs: replay_missed_consensus"])
p("The consensus pack of an epoch is a crash-safe log of outputs",
  "For every history of saves, persists and crashes (any point of a persist, any loss of unsynced data and index entries, followed by the repair on open) the pack opens and answers every read by number, by digest and of the latest header exactly like the list of outputs accepted and not lost; a crash loses exactly the outputs saved after the last completed persist. Saving refuses everything but the next number of the epoch, and a batch answered by digest has that digest. Excluded and refuted by runs: a crash in the first persist between two syncs, torn metadata of a new pack, a repeated batch whose newer copy is cut off.",
  "every history of saves, persists and crashes",
  "Crash points, surviving prefixes and histories are unbounded.",
  ["crates/storage/src/consensus_pack.rs: Inner::save_consensus_output, open_append, persist, get_consensus_output, consensus_header_by_number, consensus_header_by_digest, batch"])

p("An epoch imported from a peer is the certified epoch",
  "Whatever records a peer streams, in either format version: if the import of an epoch is accepted, the pack installed holds exactly the true headers of that epoch, from the one after the previous record's final header to the one the certified record names, each with exactly the batches its headers name; metadata, start number and committee keys are those of the previous record. A rejected stream leaves the existing pack in place, a pack that already holds the named header is never replaced, and an honest peer's stream is accepted. Limits refuted by runs: committee execution addresses are not authenticated, in epoch 0 the pre-genesis header can displace header 1, a header without certificates panics.",
  "every record stream, both versions, every existing pack, every epoch record pair",
  "The peer is adversarial and streams are unbounded.",
  ["crates/storage/src/consensus_pack.rs: Inner::stream_import, verify_epoch_meta, iter_to_output, iter_to_output_legacy", "crates/storage/src/consensus.rs: ConsensusChain::stream_import, import_partial_to_staging"])

p("A following node saves and executes exactly the agreed outputs, one after the other",
  "For every history of gossiped tips, backward downloads answered by arbitrary peers, pack imports, draining, saving, task restarts, epoch starts and crashes (tips and imported packs trusted, no digest collision): everything in the download cache, the packs and the announced tip is the chain's; the outputs saved from one start to the next crash are the next ones of the chain, each once, none skipped, and no task ends with an error; an output enters the channel only linked by parent digest and number to the one before, whatever the cache holds; a walk answered honestly fills every height down to its floor; a gap is left to the running walks exactly when together they cover it; when everything up to the target is held, the node reaches it. If the channel loses messages what is saved is still true and increasing. Refuted by runs: a walk to height 0 ends; a lost message is noticed when an imported pack is open; an output decoded with another epoch's committee pays the right addresses.",
  "every history of events of one node, every peer answer, every crash point",
  "Peers are adversarial; interleavings and lengths are unbounded.",
  ["crates/state-sync/src/consensus.rs: get_consensus_output, get_consensus_header_range, manage_new_consensus, WalkTracker::reserve_if_uncovered, spawn_track_recent_consensus", "crates/state-sync/src/lib.rs: spawn_stream_consensus_headers, catch_up_consensus_from_to", "crates/consensus/executor/src/subscriber.rs: handle_sync_output", "crates/storage/src/consensus.rs: save_consensus_output, consensus_output_by_number"])

p("Bytes, digests and signatures mean one thing",
  "Headers, batches, epoch records and node records are received exactly as sent; accepted headers are always well formed; a digest of a header, batch, epoch record, committed sub-dag, consensus header or whole consensus chain stands for one value unless the two encodings concerned collide under the hash; and the same bytes are never signed for two purposes or contents: a vote, an execution result, an epoch record, a seed, a proof of possession, a node record (old or new layout) and a network-key text can never be passed off as one another.",
  "all values of the types, all byte strings arriving from peers, all hash functions with 32-byte output, all pairs of signed messages",
  "Tests compare a few encodings and a few digests; uniqueness is a statement about all pairs of values and all byte strings, including adversarial ones.",
  ["crates/types/src/primary/header.rs", "crates/types/src/worker/sealed_batch.rs", "crates/types/src/primary/epoch.rs", "crates/types/src/primary/output.rs (CommittedSubDag::digest)", "crates/types/src/primary/block.rs (digest_from_parts, digest_data)", "crates/types/src/primary/vote.rs", "crates/types/src/crypto/intent.rs", "crates/types/src/crypto/bls_signature.rs (construct_proof_of_possession_message)", "crates/types/src/primary/seed_chain.rs", "crates/network-libp2p/src/types.rs (NodeRecord)", "crates/config/src/keys.rs"])

p("Worker batches: only valid ones are stored, a seal means a quorum, certified batches stay available",
  "A batch is accepted exactly if the claimed digest is its own and worker, epoch, base fee, non-emptiness, size, transaction types, signatures and gas are right; an acknowledged report means the batch is valid, stored under its digest and recorded. An honest builder keeps the limits, never leaves a nonce gap, leaves a transaction out only for a reason, and a non-empty batch of it is accepted by every honest member. The quorum waiter reports success exactly if two thirds (with itself) accept, in any order of answers, and failure early only when a quorum is out of reach. In every history of reports, seals, prefetches, votes, certificates, synchronisations, fetches, disk writes and crashes with fewer than a third bad members and arbitrary peer answers: every certified digest is that of a valid batch, every honest voter that lost no cached batch in a crash holds it, so without losses more than a third of the committee does, and a node asking the honest members gets it in one round. Refuted by runs: a valid batch may be too long for the stream frame and then hides every other batch asked for with it; a builder with only unsupported transactions pending sends an empty batch and is charged with a fatal penalty; after a crash members vote for batches nobody has, because the batch cache is not synced to disk while the record of availability is; the kind of a quorum failure depends on the order of answers; a header's worker id is not compared with the batch's.",
  "all batches, pools, answer orders, peers' byte streams, event histories and crash points, any committee",
  "Peers are adversarial and histories, sizes and crash points unbounded.",
  ["crates/batch-validator/src/validator.rs: validate_batch", "crates/batch-builder/src/batch.rs: build_batch", "crates/consensus/worker/src/quorum_waiter.rs: verify_batch, waiter", "crates/consensus/worker/src/worker.rs: seal", "crates/consensus/worker/src/network/handler.rs: process_report_batch", "crates/consensus/worker/src/network/handle.rs: request_batches, read_sync_batches", "crates/consensus/worker/src/network/primary.rs: synchronize, store_synced_batches", "crates/consensus/worker/src/batch_fetcher.rs: fetch_for_primary, get_batches_local", "crates/consensus/primary/src/state_sync/header_validator.rs: sync_header_batches"])

p("Agreement of the whole network, from its components",
  "Take any execution of all honest validators' vote services, proposers, certifiers and certificate intake (gossip, fetched batches, own certificates), with crashes, restarts, failing I/O and epoch changes at any point, and with at most a third of each committee faulty in any way that does not forge signatures or find digest collisions. Then in every epoch the headers certified in the eyes of any honest validator form a sound DAG (committee members only, one header per author and round, a quorum of certified parents), so any two honest ordering engines, fed at any two moments in any order, commit one sequence of which each has a prefix; every ordered header was signed by a quorum whose honest members ran the full vote check on it; an honest validator never signs two headers for one author, epoch and round; an accepted certificate always carries a quorum of real signatures.",
  "all executions of the network, all committees, all fault sets within the bound, all adversarial certificates, votes and requests",
  "Tests run a few committees with scripted faults; agreement is a statement about all schedules, crash points and adversaries at once, and about how the guarantees of the parts fit together.",
  ["crates/consensus/primary/src/network/handler.rs: vote, process_gossip", "crates/consensus/primary/src/proposer.rs", "crates/consensus/primary/src/certifier.rs", "crates/consensus/primary/src/state_sync/cert_validator.rs", "crates/consensus/primary/src/aggregators/votes.rs", "crates/consensus/primary/src/consensus/bullshark.rs"])

p("The record of the latest output survives",
  "The two slot files together always open. A value read from a slot was written there completely. After any history of recorded outputs, failing writes and syncs, process kills and machine crashes, the value found is (0,0) or one that was recorded; once the background thread has caught up a restart finds the last one, and once both files are synced so does a crash. If every record waits for the one before to be persisted (as saving does), a crash at any moment costs at most the record in flight, whatever it tears. A hint written after an import is found unless the second slot holds a later value. Refuted by runs: two records in flight can take the record back to (0,0) or before an acknowledged value; a failed write is acknowledged; a kill between write and sync followed by a machine crash can lose both slots; a hint loses against a later second slot.",
  "all histories of updates, thread turns, I/O failures, kills and crashes, all contents a crash can leave",
  "Crash points, torn contents and interleavings with the background thread are unbounded.",
  ["crates/storage/src/consensus.rs: LatestConsensus::new, read_slot, encode_slot, update, persist", "crates/storage/src/consensus.rs: ConsensusChain::write_latest_consensus_hint"])

p("The peer table: one record per peer, right counts, bounded, bans by address only when earned",
  "After any history of connections, dials, disconnections, penalties, key announcements, allowlisting, committee changes and heartbeats, with any clock values and any iteration order of the tables: a peer id is found under a committee identity exactly if that identity's record holds the id, and no peer id has two records; the number of disconnected peers is counted exactly and the number of banned ones never too low; an address is refused only if a connection from it was seen, and (in orderly histories) only while two banned peers have been seen on it; after a disconnection at most the configured numbers of disconnected and banned peers remain, the oldest go and nothing else changes; after a committee change no known member is banned, about to be, or on a refused address, and members are exempt from penalties. Refuted by runs: the count of banned peers can stay too high for ever; a pending ban is dropped by a disconnect; a record naming another's network key takes over its state.",
  "all histories of events, all clock values, all configurations, all iteration orders",
  "The counters are only right if every one of the transitions between the statuses keeps them right in every order.",
  ["crates/network-libp2p/src/peers/all_peers.rs", "crates/network-libp2p/src/peers/banned.rs", "crates/network-libp2p/src/peers/peer.rs", "crates/network-libp2p/src/peers/status.rs"])

p("Peer scores: penalties bite, bans last, members are exempt",
  "After any history: every score is within the configured range; an exempt peer's score is changed by neither penalties nor heartbeats; a penalty on any other peer lowers the score by exactly its weight (clamped), a fatal one bans; a heartbeat never bans; a ban lasts (whatever else happens, until the record is pruned, the identity is forgiven as a member or reset) as long as no heartbeat reaches the end of the lock, which is the configured time after the last score update; announcing a new network key never improves the score of the identity nor of the peer behind the key. Refuted by runs: a peer disconnected for a low score is recorded as banned and never released; a peer leaving the committee can be banned for one heartbeat only; the allowlisting does not follow the identity; a ban can be shed through a record of another identity; a banned identity that reconnects under a new key stays connected.",
  "all histories of events, all score configurations with decay towards zero",
  "Scores, locks and exemptions interact over unbounded histories.",
  ["crates/network-libp2p/src/peers/score.rs", "crates/network-libp2p/src/peers/peer.rs: apply_penalty, heartbeat, retain_worse_score", "crates/network-libp2p/src/peers/all_peers.rs: process_penalty, heartbeat_maintenance, upsert_peer, update_committees"])

p("From committed outputs to blocks: one chain on every node, through faults and restarts",
  "The committed outputs alone determine the chain of blocks: one block per batch in the order of the output, one for an empty output that closes the epoch, none for other empty outputs, each with the header fields, body, system calls and withdrawals the output prescribes. Whatever fails locally (building, persisting, announcing) and whenever the node is killed, its database holds whole outputs of that chain from genesis and nothing else, so the stored chains of any two nodes extend each other; a stored block is never replaced; a batch is executed exactly once and a transaction is included at most once; the closing block of an epoch pays every leader of that epoch exactly, restarts or not; what was announced is durable; the visible head is the newest durable block; re-executing a block from its header reproduces it; after a restart a node without further faults reaches the end of the committed outputs, if batches were validated. Refuted by runs: a batch with more gas than a block halts every node for good; a persist fault behind the static files cannot be retried; a failed announcement leaves the finalized block behind the head; a batch of an unknown worker panics with a phantom head, or, using no gas, blocks every later start; an uneven closing output in a tolerated epoch never closes it.",
  "all sequences of committed outputs, all EVM semantics, all local faults, crash points and restarts, all pairs of nodes",
  "Fault and crash points multiply with outputs, batches and epochs; agreement of two nodes with different restart histories needs the restart to rebuild exactly what was lost.",
  ["crates/engine/src/payload_builder.rs: execute_consensus_output, execute_payload, persist_output_with_retry, rollback_in_memory_output", "crates/engine/src/lib.rs", "crates/tn-reth/src/env/execution.rs", "crates/tn-reth/src/payload.rs", "crates/tn-reth/src/evm/config.rs", "crates/tn-reth/src/evm/block.rs: apply_pre_execution_changes, execute_transaction, finish, assemble_block", "crates/node/src/manager/node.rs: catchup_accumulator", "crates/state-sync/src/lib.rs: get_missing_consensus"])

p("Temporary bans: held as long as configured, bounded, and reported when they end",
  "After any history of bans, lifts and heartbeats with a clock that does not go back, the set of temporarily banned peers is exactly the last N (at least one) distinct peers banned, minus those lifted or expired; a new ban is reported as new exactly if the peer was not banned, and pushes out exactly the peer banned longest ago when the set is full; a peer stays banned for the configured time unless lifted or pushed out by N others, and is gone at the first heartbeat after it; a heartbeat reports exactly the peers whose time is over; no internal expectation ever fails.",
  "all histories of insertions, removals and heartbeats with non-decreasing clock, all durations and capacities",
  "List and set must agree after every history; an expect in the code panics if they do not.",
  ["crates/network-libp2p/src/peers/cache.rs: BannedPeerCache::insert, remove, heartbeat, contains, len"])

p("Banned peers are shut out and announced, nobody else is",
  "A peer that is temporarily banned, recorded as banned, on a refused address or the node itself can neither connect nor be dialed; everybody else is accepted. Whenever a penalty, a closed connection or a failed dial makes a peer banned it is shut out and, once queued events are delivered, on the gossip blacklist; an expired temporary ban is announced; blacklisted peers are always shut out and there are at most as many as the cache holds, none longer than the ban lasts, provided no operator lifts a ban by adding the peer as trusted. The node never penalises itself and the ban cache never panics. Refuted by runs: the blacklist entry ends after the temporary ban although the reputation ban goes on; adding a banned peer as trusted leaves it on the blacklist for ever; a member discovered late is not forgiven (contrary to the comment); a banned identity under a new key is neither announced nor temporarily banned.",
  "all histories of connection events, penalties, records, committee changes, heartbeats and event deliveries, with non-decreasing clock",
  "Three structures (peer table, ban cache, gossip blacklist) are kept in step by queued events over unbounded histories.",
  ["crates/network-libp2p/src/peers/manager.rs: process_penalty, apply_peer_action, register_disconnected, heartbeat, peer_banned, can_dial, update_committees, add_trusted_peer_and_dial", "crates/network-libp2p/src/peers/behavior.rs", "crates/network-libp2p/src/consensus.rs: Banned/Unbanned handling"])

p("The directory of known peers: complete, bounded, authentic",
  "After any history the directory holds one entry per identity and only identities the operator provided, current committee members or restored ones; operator-provided identities and members resolve for ever once known while they stay; a record of a member is taken over when it is not older, any other record is dropped; timestamps of unpinned entries never go back; every endpoint was supplied by the operator, a restored file or a record of that identity. Refuted by a run: an entry pinned by the operator can be rolled back by replaying an older signed record.",
  "all histories of node records, operator commands, committee changes and restarts",
  "Records arrive in any order from any peer, and committee changes interleave with them.",
  ["crates/network-libp2p/src/peers/manager.rs: process_kad_record, add_known_peer, add_trusted_peer_and_dial, update_committees, auth_to_peer, known_peers"])

p("Connection limits, pruning, discovery and dialing",
  "After any history: a heartbeat gives up exactly the excess over the target among the unprotected connections, worst score first, never a committee member or operator-added peer, gains none, and leaves at most the target or the protected ones; each victim is told where else to go and temporarily banned, no other record changes. A new connection is kept exactly if the peer is protected or there is room, and otherwise refused in the same way. The discovery table has one entry per peer, never the node itself, one address with an IP each, at most twice the target after a heartbeat, entries only from exchanges and discovery queries; a heartbeat dials at most what is missing to the target, only peers that may be dialed, and all of them if fewer than missing; goodbyes list exactly the open connections of known identity. Refuted by runs: only max_peers - 1 peers fit; a second connection of a connected peer at the limit loses both; discovery answers are taken in without bound until the next heartbeat.",
  "all histories of events, all random choices, all configurations",
  "Victims depend on counts, scores and random order over unbounded histories.",
  ["crates/network-libp2p/src/peers/manager.rs: prune_connected_peers, peer_limit_reached, process_peer_exchange, process_peers_for_discovery, discovery_heartbeat, dial_peer", "crates/network-libp2p/src/peers/behavior.rs: on_connection_established", "crates/network-libp2p/src/peers/all_peers.rs: connected_peers_by_score, peer_exchange"])

p("From gossiped epoch votes to a stored certificate",
  "For every history of gossip, routing, collector turns, epoch closings, downloads, disk failures and crashes: a vote is let in exactly if it came on the vote topic, is on the digest of our own stored uncertified record of its epoch, comes from a member of that record's committee with a valid signature and is the first of that member for the epoch; a refused message changes nothing; collectors count one valid signature per committee position; every stored certificate verifies; there are at most five queues and 1024 remembered votes. A node publishes at most one vote per epoch (except epoch 0) across crashes, on a record it has on disk, if records found by a closing are flushed. If after an epoch closed a super quorum of the committee gossips valid votes and the collector receives them within 25 timeouts, in any interleaving with anything else that arrives, a verifying certificate is stored; after a crash the last uncertified record is voted on again with the same vote. Refuted by runs: a late valid vote for an old epoch can lose the current epoch's votes for good, early votes for epoch 0 are charged, two quick closings lose a collector, an unflushed closing or a rebuilt epoch 0 can be signed twice.",
  "all histories of events (message orders, schedules, crash points, disk failures), all committees and records",
  "The outcome depends on the interleaving of gossip, router, collectors and crashes; tests drive a few schedules.",
  ["crates/consensus/primary/src/network/handler.rs: process_gossip (EpochVote), epoch_vote_seen, record_epoch_vote", "crates/consensus/primary/src/error/network.rs: penalties", "crates/node/src/manager/epoch_votes.rs: get_new_vote_channel, handle_new_vote, spawn_epoch_vote_collector, manage_epoch_votes, revote_uncertified_epoch_record_on_startup", "crates/node/src/manager/node/close_epoch.rs: write_epoch_record"])

p("Execution extensions: notifications, replay, catch-up, floor",
  "For every sequence of certificates, outputs, commits, upstream losses, receptions, reports and deaths: what an ExEx received, what waits for it and the marker it is owed are the whole story in order, each run of lost notifications replaced by one marker with their exact number; if it never falls behind by more than its channel holds it misses nothing; for commits in order no block is skipped without a marker in between; other ExExes make no difference and none can stop the manager; the published finished height is the minimum of the heights last taken, never above what each ExEx reported and absent until all have; a replay yields every block in turn up to the first unreadable one, which is its last item; a replay-then-live stream without marker delivers every block from start to the last exactly once in order; every source that keeps having items is served within 2, 4, 8, 8 polls. Refuted: losses before the first commit are silent, an ExEx already at the tip gets blocks below its start again, a tip inside a commit repeats blocks, the floor can go down, a last report can be lost.",
  "all histories of the four sources and of the ExExes, all capacities, all databases, all poll sequences",
  "Loss depends on the interleaving of producers and slow consumers; tests fill one channel once.",
  ["crates/exex/src/manager.rs: ExExHandle::send, Router, canon_gap, recompute_min, merge_sources", "crates/exex/src/replay.rs: ReplayCore::poll_next", "crates/exex/src/context.rs: replay_and_subscribe, keep_height, dedup_chain_executed, report_finished_height", "crates/node/src/manager/node.rs 769-845", "futures select_with_strategy, tokio mpsc try_send (assumed)"])

p("The proposer never loses an acknowledged batch",
  "For every interleaving of digests, parents, commit reports, timers, header tasks, schedule changes and writes of the published round: every digest acknowledged to a worker (and every batch of a header sent again) is in the queue, in the header being sent, in a tracked header, or in a header of this node reported as committed, and that header had been sent and named by a report; with new digests, reports that name tracked headers and no reported header sent again, no batch is in two committed headers and a committed batch is nowhere else; a report puts exactly the batches of the headers it passes over back at the front, oldest first; batches are served first come first served, and a digest behind p others is included as soon as the new headers times the limit exceed p plus what was put back; every header built has parents, the epoch, at most the allowed batches and a round above all earlier ones, its parents are from the round before (published round not moved by others), and only headers of the epoch are sent; after a restart the recorded header goes out before a new one; no header is built before its conditions hold and one goes out whenever the maximum delay passes; a full committee of parents is always enough. Refuted: a report overtaking the registration, or a re-send after commit, puts a batch in two committed headers; a restart at a published round without record builds on genesis; a timer firing during the sending re-sends at once.",
  "all event sequences, all batch limits and thresholds, all committees, all recorded headers",
  "Losing or repeating a batch depends on the order of reports, header tasks and timers over many rounds.",
  ["crates/consensus/primary/src/proposer.rs: Proposer::{new, run, process_parents, process_committed_headers, propose_next_header, handle_proposal_result, store_and_send_header, ready, enough_votes, update_leader}", "crates/consensus/primary/src/consensus/state.rs 516-548", "crates/types/src/committee.rs 247-260"])

p("The certificate store answers from what it holds, and a node that fell behind gets exactly what it lacks",
  "After any history of saves, collections, deletes and clears (a crash between the transactions of a write included), with one certificate per author and round: reads by digest, by author and round, the certificates from a round on (ascending by round, then author), the authors per round, the last two rounds, an author's last and next round and the highest round all answer from exactly the certificates that survive the history, and the indexes never disagree with the certificates. A request for missing certificates carries exactly the rounds the requester holds above its collection round, one beyond the limits is refused before its bitmaps are expanded; the responder's stream is sorted by round (parents before children), each certificate was held when read and was asked for, nothing held from start to end and asked for is missing from a stream that ended on its own, and with the store at rest it is exactly what was asked for; an honest response fits the frames and arrives up to the cap, and whatever arrives, no more than the accepted size is kept; among several peers the first usable answer is returned, and failure means every peer was asked and none answered usefully; a request to catch up stays a target until the store holds a certificate of that author at or above it or it is below the collection round, and while there is a target a task is running, one at a time; one full exchange settles every target the responder can settle. Refuted: two certificates in one slot hide each other on delete; the clear at the end of an epoch is three transactions, and a crash between them makes the next start-up read fail; a certificate collected during a stream drops the author's later ones; a bound of u32::MAX wraps to round 0.",
  "all histories of store transactions, all requests, all interleavings of the stream with writes and with the time limit, all committees, all peers' answers",
  "The agreement of three tables, and of a request with the response built from another node's store, depends on every history of both.",
  ["crates/storage/src/stores/certificate_store.rs", "crates/consensus/primary/src/state_sync/cert_collector.rs: CertificateCollector", "crates/consensus/primary/src/network/message.rs: MissingCertificatesRequest::{get_bounds, set_bounds}", "crates/consensus/primary/src/network/sync_codec.rs: send_certs, read_sync_certificates", "crates/consensus/primary/src/certificate_fetcher.rs", "crates/node/src/manager/node/close_epoch.rs 754-766"])

p("A transaction handed to a node outside the committee reaches a validator, gets a considered rejection or goes back to the pool",
  "A node outside the committee dials only endpoints its policy allows: under the public-only policy a host is allowed exactly when it is outside the loopback, private, link-local, shared, unspecified, multicast and reserved blocks (also when such an IPv4 address is embedded in an IPv6 one) and is not a localhost or local name. A batch is admitted exactly when it and the committee are non-empty, fewer than 64 forwards run and some advertised endpoint is usable; the builder is told it is taken exactly then. Every transaction of an admitted batch then meets exactly one fate: delivered (some validator accepted it or knew it), rejected, or offered back to the pool, and the tallies are the counts of these. The sender's validator is asked first, then the others in the batch's order, each at most once, nobody is passed over who could be asked, an endpoint found unreachable is not asked again in the batch; a rejection takes two validators unless everybody else was asked or unreachable, or the time ran out; a send takes at most 5 s, a transaction 15 s, a batch 120 s. What goes back survives a prune in the batch's first second. An endpoint that failed is not used for 30 s while it stays advertised. The fallback order turns by one with each batch, so that of n batches each of n validators comes first in one. After n refusals in a row the builder waits min(period*2^(n-1), 30 s). Refuted: a delivery never lifts a demotion (the code for it is dead); withdrawing an advertisement for one batch clears the demotion; a prune that comes later than the grace drops a transaction put back; an aborted task puts nothing back that it has not come to.",
  "all batches, advertisements, endpoint answers and delays, pools, and all histories of batches, failures and task ends",
  "Which validators are asked and what becomes of the transaction depends on every combination of answers, delays and earlier failures; censorship by one validator is one such combination.",
  ["crates/tn-reth/src/forward.rs: WorkerRpcForwarder::{cached_providers, spawn_forward, forward_txns}, walk_fallback_chain, requeue_one, classify_error, rotated_fallbacks, owning_validator, ForwardTargetPolicy", "crates/consensus/worker/src/worker.rs: disburse_txns", "crates/batch-builder/src/lib.rs: refusal backoff 312-375"])

p("Exported state restores exactly, in whatever order things crash, and nothing uncertified is restored",
  "Exporting a pinned state writes a pack that says exactly that state: it verifies with the true counts, carries the given headers, and reads back account by account as the state, orphaned and zeroed slots left out and storage cut into full chunks of 65536. Verification accepts exactly the packs of the right shape: first header the declared block with the declared root, header count between 1 and 4096 and at least min(number, 256), chunks within the bound, a footer with the number of accounts. Both readers hand out the same accounts and slots. A pack cut before its footer, wherever, is refused by verification and import. Whatever bytes a pack holds, if its declared block is a block of the chain and the restore reports success, the datadir holds exactly that block's state, the last 256 headers, their numbers, finalized and safe markers and the floor below which reads are refused, and the next epoch's entry read succeeds. What a node exports restores into any empty or genesis-only datadir; an export is taken only from a view whose tip is the block, in at most eight attempts. The load command reports success only if the certified record of the bundle's last epoch names the block restored, with fewer than a third of each committee faulty. A crash at any step on an empty datadir leaves chain data past genesis only under its floor, and tables that are genesis's, empty or exactly the block's; a failed command leaves an empty datadir empty; a datadir with chain data is refused and its data never touched. Refuted: the refusal removes the floor of a restored datadir, after which older blocks read as the empty state; a late failure on a genesis-only datadir leaves the restored data without its floor; a pack that verifies can be one no import takes (account order), though the code says otherwise; verification ignores the footer's slot and code counts and what follows it.",
  "all states, table contents, packs (arbitrary bytes), datadirs, bundles, chains, faulty sets below a third, and crash points",
  "A restored node that differs in one slot forks off the fleet; which slot, which chunk boundary, which truncation or crash point is not something examples cover, and the certified claim ranges over all adversarial bundles.",
  ["crates/storage/src/exec_state_pack.rs: ExecStatePackWriter, ExecStatePackReader::{open, next_account, next_entry, verify}", "crates/tn-reth/src/snapshot.rs: PinnedStateView::{verify_tip, export_state_pack}, stream_account_slots, SnapshotRestorer::{open, import_chain_scaffold, import_state, entry_readiness_precondition, finish}, check_entry_readiness", "crates/node/src/manager/export_exec.rs: export_once, gather_headers", "crates/telcoin-network-cli/src/db.rs: DbLoadStateArgs::execute, clean_created_chain_data, verify_record_chain_in_memory, scaffold_window, restore_pack", "crates/tn-reth/src/env/mod.rs: read_only_state_db, restored-state floor"])

p("The offline pack validator reports exactly the problems of the file",
  "Validating a pack file fails exactly if it does not start with its metadata or some record cannot be read; otherwise the report names exactly the problems of the file: every header out of sequence, every header whose parent hash is not the digest of the header before it (or, for the first, of the previous epoch's last), every batch a header names that is not in its group, every batch of the group it does not name, every group out of order, every metadata mismatch; its counts and first and last numbers are the file's, and it says valid exactly if there is no problem. A missing batch is called absent exactly if no record of the file is a batch with that digest. Without the previous record the report is the same but for the metadata linkage and the first parent. A pack written by a node validates. For files whose headers are numbered consecutively from the declared start, the importer accepts exactly the files the validator (given the previous record) finds nothing in and whose sub-dags have leaders and authors of the epoch's committee, whose groups are within the committee's capacity, whose numbers are within the certified one and, in version 1, whose first record is a header; it then imports the headers in file order. Refuted: valid does not mean the pack would import cleanly (batches before the first header or with no header, foreign epoch, unknown author, leaderless sub-dag that panics the importer, and, as the command line calls it, an epoch that does not continue the chain); invalid does not mean it would be rejected (a trailing header with a stored number is accepted and dropped; the pre-genesis header in epoch 0).",
  "all files (record sequences, both format versions), epochs and previous records",
  "A validator that misses one shape of corruption, or flags a healthy archive, misleads the operator deciding whether a pack can be repaired; the record sequences are unbounded and its grouping logic differs between formats and from the importer it mirrors.",
  ["crates/storage/src/pack_validate.rs: validate_pack_file, verify_v0_data, verify_v1_data, close_v1_group, finalize_report", "crates/storage/src/consensus_pack.rs: Inner::stream_import, verify_epoch_meta", "crates/telcoin-network-cli/src/db.rs: DbValidateArgs::execute"])

p("The discovery store answers from its history",
  "After any history of publications, withdrawals, announcements, restarts, expiries and damage to stored provider rows, a lookup returns exactly the record accepted last under the key, unless withdrawn or expired; the listing gives each unexpired record once; the providers of a key are exactly one per peer, the last accepted unexpired announcement; the node republishes its own announcement and nothing a peer sent. Publishing never panics and is refused exactly for a value too large or, if records are only withdrawn while they are there, when the key has no unexpired record and the cap is reached by unexpired ones (otherwise: refused only then); the caps on records, provider keys and providers per key hold. Opening panics exactly if a record row does not decode, and purges exactly the damaged provider rows. The primary and worker stores never touch each other. An inbound put stores only a valid record of unbanned peers strictly newer than an unexpired stored one, otherwise changes nothing, and penalises exactly the publisherless and the invalid. Refuted: the record cap (a removal of an absent record lowers the counter, so any number of records can be stored); a tolerant load of the records table; that the node's own announcement always succeeds; replay protection across expiry; separate stores for separate workers.",
  "all histories, clocks, database contents (where said) and store limits; injective key hash",
  "Counters, eviction, expiry and corruption interact over unbounded histories; tests exercise a handful of orders.",
  ["crates/network-libp2p/src/kad.rs: KadStore (RecordStore impl), evict_expired_records, evict_expired_providers, scrub_corrupt_providers, merge_provider, RecordIter", "crates/network-libp2p/src/consensus.rs: ConsensusNetwork::new (record load), process_kad_put_request, process_kad_add_provider, is_newer_record"])

p("Messages on the wire arrive whole, once, and within the limit",
  "However a peer's bytes are cut into segments and whatever a codec read before, a reader accepts exactly the bytes of one message of at most the limit and leaves the stream at the byte behind it; bytes that mean one message never begin those of another. A length over the limit is refused after four bytes and a body longer than any compression of that length after eight; the buffers never hold more than the limit, resp. what the limit can compress to and what has arrived, and no more is taken from the stream. A message is written exactly if it has an encoding within the limit, and nothing of it otherwise; a stream of messages written is the stream read, and part of a message is never a message: the end or the failure of the stream is reported. Refuted: that a message has one encoding; that writer and reader agree for limits whose compressed length is no 32-bit number.",
  "all byte streams, segmentations, ends of streams, buffer states, limits, messages",
  "The outcome must not depend on how the network cuts the bytes, and must hold for every hostile byte string; tests try a few.",
  ["crates/network-libp2p/src/codec.rs: decode_message, encode_message, TNCodec (read_request, read_response, write_request, write_response)", "crates/network-libp2p/src/sync/frame.rs: read_frame, write_frame"])

p("A pack transfer is taken for complete only if it is",
  "The receiver of an epoch pack (whole or part) or a single output hands over the bytes of the source, in order and once, and takes the transfer for complete exactly if the source did not fail, however the network cuts the bytes. A server that fails, is cut off or stalls anywhere never yields a complete transfer, only whole pieces from the beginning. Nothing to serve is a denial. Whatever a peer sends, a transfer counts as complete with the data d exactly if an Ack, Data frames carrying d and an End frame arrived, and no byte is handed over that was not in a Data frame behind the Ack. Frames of both networks are encoded exactly if well formed, are read back as they were, and begin with fixed bytes. Refuted: that a worker request has one encoding.",
  "all sources, pieces, segmentations, cut points, peer byte strings",
  "A cut may fall at any byte and a hostile peer may send anything; tests cover a few transfers.",
  ["crates/network-libp2p/src/sync/frame.rs: SyncFrame, read_frame, write_frame", "crates/network-libp2p/src/sync/request.rs: PrimarySyncRequest, WorkerSyncRequest", "crates/consensus/primary/src/network/sync_codec.rs: send_sync_epoch_pack_over_stream, write_pack_data_frames, send_sync_consensus_output_over_stream, sync_pack_reader, next_pack_chunk", "crates/consensus/primary/src/network/mod.rs: request_epoch_pack (stream part)", "crates/consensus/primary/src/network/handler.rs: closing Err frame"])

p("The gateway's rate limits hold over every stretch of time, and refuse nobody they need not",
  "For every order of requests and sweeps with a clock that does not go back: in every stretch of time no more requests get past the gateway's limit than its burst plus its rate times the stretch, however many clients there are; the same holds for every client and its limit while no more clients appear than the table has room for. A request is refused exactly if letting it through would break one of these bounds for some stretch ending now. The periodic sweeps change no answer and forget every client that has been silent for as long as its bucket takes to fill, and the table never outgrows its cap. Two addresses are one client exactly if they have the configured leading bits in common, an IPv4 address being the same seen through IPv6. Refuted: the bound if requests take the lock in another order than they read the clock; that only requests let through are charged to the gateway (one client's refused requests shut out the others); that a client is limited when the table is full.",
  "all histories of requests and sweeps, limits, prefixes, table caps",
  "The bounds speak about every window of unbounded histories; tests advance a manual clock a few times.",
  ["bin/worker-gateway/src/ratelimit.rs: Bucket, GlobalLimiter, PrefixPolicy::key, mask_v4, mask_v6, PerIpLimiter::admit, admit_new_ip, RateLimiters::check, RateLimiters::gc"])

p("Waiting for a certificate never misses it",
  "For every interleaving of writers, deletions, waiters and callers that give up: if a certificate is in the store while someone waits for it, then the waiter has its value, or the notification that brings it is under way; when the writers and notifications are done, nobody waits for a certificate that is there, and the writer's and waiter's own next steps always suffice to get there. A waiter gets only a value inserted under the key it asked for. A waiter's sender is never dropped unsent (the wait does not panic), and once all waiters have finished or given up no registration is left. Refuted: that the certificate is still in the store when its waiter gets it.",
  "all interleavings of any number of writers, waiters, notifications, cancellations and deletions",
  "A lost wake-up needs one of unboundedly many interleavings of the read with the insert and the notification; tests run a few.",
  ["crates/storage/src/stores/certificate_store.rs: save_cert, notify_read", "crates/tn-utils/src/notify_read.rs: NotifyRead::notify, register_one, cleanup, Registration::poll, Registration::drop"])

out = os.path.join(os.path.dirname(__file__), "..", "properties.jsonl")
with open(out, "w") as f:
    for r in P: f.write(json.dumps(r) + "\n")
print(len(P))
