{
 "C14": {
  "note": "The budget as documented in the code is false (C14_budget_refuted: four members, two bad, budget one; C14_extreme: seven members, six bad). C14_bad_budget_exact is the exact rule, for any square root function that maps 0 to 0."
 },
 "C08": {
  "note": "Proved for all nodes that share the epoch's settings and whose restarts satisfy the store assumption and find the newest final scores in the recovery window; see DESIGN.md for what happens outside the window."
 },
 "C10": {
  "note": "The stronger completeness claim is refuted by C10_complete_history_refuted (a witness run of the model)."
 },
 "C29": {
  "note": "The two conditions are needed: C29_unreadable_record_refuted and C29_lowered_parents_refuted are runs of the model that break the claim without them."
 },
 "C31": {
  "note": "C31_republish_race_refuted is a run of the model in which a re-proposed header publishes a record that is still only in memory and a crash leads to a second, different certificate."
 },
 "C21": {
  "note": "For histories whose storage writes succeed and whose certificates keep the parent-round relation voters enforce; C21_failed_write_refuted and C22_inconsistent_rounds_refuted show both conditions are needed."
 },
 "C22": {
  "note": "Same conditions as C21; C22_inconsistent_rounds_refuted is the run without the round relation."
 },
 "C30": {
  "note": "An indirectly verified certificate's own signer bitmap and signature are never looked at (C30_indirect_signature_is_not_checked): only its header is vouched for."
 },
 "C24": {
  "note": "Excluded cases are refuted by runs of the model: C24_oversize_record_refuted (append accepts what fetch refuses) and C24_commit_retry_refuted (a commit retried after a partial flush answers Ok and has lost the record)."
 },
 "C26": {
  "note": "For runs in which writes succeed. Refuting runs show what does not hold: C26_length_is_not_key_count_refuted, C26_unreadable_overflow_refuted, C26_failed_split_refuted, C26_crash_in_sync_refuted."
 },
 "C27": {
  "note": "Crowding out is excluded when |numbers| * (2f+1) <= max(n, 20), which covers one number for every committee; with many future numbers it is refuted by a run (C27_many_numbers_refuted, the residual the code documents). Clock, libp2p and the topic check are not modelled."
 },
 "C32": {
  "note": "Holds for records with the same committee. C32_different_committees_refuted: two different shrunken committees accepted against one trusted committee can have disjoint quorums; C32_one_member_refuted: a committee of one never certifies."
 },
 "C38": {
  "note": "C38_shared_error_slot_refuted, C38_certified_stand_in_refuted and C38_recovery_does_not_replace_refuted delimit the claim. Half-done appends, read failures and polling deadlines are not modelled."
 },
 "C39": {
  "note": "C39_direct_call_only_refuted (delegatecall inherits the caller) and C39_unseeded_supply_refuted (genesis leaves the supply slot at zero) delimit the claim. Keccak slot separation is a parameter."
 },
 "C40": {
  "note": "For transactions revm's validation admits. C40_using_less_never_costs_more_refuted: a caller can lower its bill by wasting gas."
 },
 "C41": {
  "note": "good_history excludes exactly the crash and mode-change windows; C41_crash_points shows which kills that is, and each excluded window is refuted by a run (C41_slot_ahead_refuted, C41_stale_slot_refuted, C41_mode_change_skips_refuted, C41_mode_change_gap_refuted, C41_executed_before_durable_refuted). Bullshark's recovery and agreement on sub-dags are parameters here (C07, C08, C31); packs are used as C42's log."
 },
 "C42": {
  "note": "good_history excludes the crash of C42_first_output_refuted; C42_torn_metadata_refuted, C42_batch_lookup_refuted and C42_low_number_refuted further delimit the claim."
 },
 "C43": {
  "note": "Collision freedom is assumed only between streamed and true headers/batches. Limits: C43_addresses_refuted, C43_epoch_zero_refuted, C43_leaderless_panics_refuted."
 },
 "C44": {
  "note": "Environment assumptions are good_event in FolSpec.v (tips C27, packs C43, slots C41/C42). Lag and execution failure: C44_saved_true_and_increasing. Limits: C44_walk_to_zero_waits, C44_lag_skips_an_output_refuted, C44_wrong_committee_refuted."
 },
 "C45": {
  "note": "Byte-level model of BCS and of every digest preimage and signed message, checked against the two frozen header vectors of the source. Hash collisions are exhibited (the two concrete preimages), never assumed away in general. Findings: the sub-dag digest does not hash the number of headers, so it is unique only for a known committee size (refuted otherwise with concrete bytes); header wire bytes are not unique (bcs does not check sets); votes and results share a signing scope and are kept apart by the length of their preimages only; node records and network-key texts are signed without any intent prefix and are kept apart by their first byte."
 },
 "C46": {
  "note": "Workers of one epoch with one worker id and one base fee; transactions opaque (recover is a parameter), batches at byte level (C45's encoding). The global theorems quantify over all event lists; a member that crashed with an unwritten cache is counted in g_lost (ghost) and the availability bound loses one per such member - without that the claim is refuted by C46_REFUTED_available_after_crash. Liveness (C46_fetch_live, C46_certified_fetchable) is for requests of up to 500 digests whose batches fit a frame; C46_small_batches_servable gives a sufficient size, C46_REFUTED_valid_is_servable shows that valid is not enough."
 },
 "C47": {
  "note": "Composition of C04/C06/C28/C29/C31/C08. One event is one step of one component of one honest validator; faulty ones appear only as event contents. Assumed of the environment (NetSpec.step_ok / network_ok): an aggregate or single signature that verifies for an honest key was made by it earlier; headers that occur have distinct digests and no digest cycle; at most (n-1)/3 faulty per committee; no vote or proposal records at the start; C29's quiet_start (the excluded proposer window) for each proposer event; the store a vote check reads holds certificates that validator accepted, its genesis lookup the genesis certificates. The proposer's committee position and the certifier's accepted set are ghost-free; 'accepted' means handed verified to the certificate manager (whether its parents are present is C21's matter). C47_example is a complete concrete execution with a faulty member, a fetch vouched for by a child, a refused forgery, and a commit."
 },
 "C48": {
  "note": "crc is any function into u32; that torn contents do not check is the hypothesis in survives/ev_ok (a machine crash leaves an old content, a newer one, or bytes that do not check). Directory entries of just created slot files are taken as durable (the code syncs the directory only in write_latest_consensus_hint). C41's list of possible slot values after a crash (last synced, or one newer) is C48_at_most_the_last_update_is_lost."
 },
 "C49": {
  "note": "orderly (PeersSpec) is the side condition for exact banned counts: no EDisconnect hits a record that is already banned, and no dial/connect race of the kind refuted in C49_refuted_phantom_bans. Network keys are identified with the peer ids they convert to. Pending dial replies, routability and connection direction are not modelled."
 },
 "C50": {
  "note": "Scores are integers in a fixed unit; the exponential decay is a parameter constrained by cfg_ok (moves towards zero, never across). Float rounding is not modelled."
 },
 "C51": {
  "note": "The EVM, system calls, roots and hash are parameters (deterministic functions, nothing else assumed unless a theorem says so); the outputs are ordered as C01/C05/C11/C41 give them (record committed)."
 },
 "C52": {
  "note": "Instants are naturals; the HashSet and VecDeque of the cache are lists; the expect calls are modelled as a None result, proved unreachable."
 },
 "C53": {
  "note": "Builds on the peer-table model of C49/C50 (PeersModel). Queued events are delivered by explicit poll events; libp2p itself (swarm, gossipsub) is represented by the calls it makes. The blacklist theorems assume clean_run (no silent lift), the refuted theorems show it is needed."
 },
 "C54": {
  "note": "Signature checks on records happen before the modelled entry point (C45 covers the signed bytes)."
 },
 "C55": {
  "note": "Random choices (shuffle, choose_multiple) are driven by an arbitrary index list, proved able to produce every selection and order (choose_any). The f32 limit computations are parameters."
 },
 "C56": {
  "note": "Turns of a collector are those of C32. Channels (capacity 10000) never fill, epochs stay below u32::MAX. BLS aggregation is a parameter: valid single signatures aggregate to a verifying certificate."
 },
 "C57": {
  "note": "A Chain is the list of its block numbers. Fewer than 2^64 notifications. select_all over the event channels is one source."
 },
 "C58": {
  "note": "A header is its round, epoch, payload and parents. The guard record is a cell whose reads succeed (durability: C29). Timers are events at any moment; their durations are not modelled."
 },
 "C59": {
  "note": "The roaring crate is assumed to return the set it was given with a truthful header (roaring_ok; an instance is exhibited). Certificates' contents are checked elsewhere (C05, C07). Database errors end the task and are left out."
 },
 "C60": {
  "note": "Endpoint answers are arbitrary per transaction and validator; URLs and keys are numbers; the host part of a URL is a parameter assumed well formed (bytes below 256). Names are not resolved: a public name pointing to a private address is allowed by the code and by the statement."
 },
 "C61": {
  "note": "Keccak, RLP, the state root and contract reads are parameters with the usual injectivity (the root commits to the state up to the two spellings of no code). The record container's framing is C24; restore_consensus_and_records is one step that succeeds or fails (C32, C43). Body segments, stage checkpoints and history indices are not modelled; a committed transaction or file is one durable step."
 },
 "C62": {
  "note": "Opening the file (container header, epoch uid, framing: C17, C24) is not repeated: a file is the sequence its record iterator yields. Consensus numbers are unbounded. The order of extra-batch issues inside a group is a HashSet's, fixed here; issues are compared as a set."
 },
 "C63": {
  "note": "The conversion between the monotonic and the system clock is taken as exact and the clock never goes back; database calls succeed; the key hash is injective (hypothesis). Whether a put's record is valid (signature, publisher) and its timestamp are parameters."
 },
 "C64": {
  "note": "BCS, the compression of one snappy block and its checksum are parameters (BCS and block decompression invert, the checksum is 32 bits, where used); the snappy frame format follows the crate snap, which is not in the repository. Allocation is counted as contents, not capacity."
 },
 "C65": {
  "note": "On top of C64 with its parameters. Timeouts are the waiting state; a writer cut off anywhere has put a beginning of its bytes on the stream; after a write abandoned inside a frame a further Err frame is covered by the theorems about arbitrary bytes only. Limits on rates and slots are not modelled."
 },
 "C66": {
  "note": "Tokens are exact (the code has f64), times are nanoseconds, one request is one step. A client's limits are nonzero by their types."
 },
 "C67": {
  "note": "The 255 shards are one map, the counter of pending registrations is left out, database reads and writes succeed, and an insert is visible at once (the layered database writes memory first)."
 }
}