{
 "claims": [
  {
   "property": "C01",
   "status": "proved",
   "theorems": [
    "C01_quorum_intersection",
    "C01_quorums_share_honest",
    "C01_quorum_value",
    "C01_honest_members_reach_quorum",
    "C01_equal_power"
   ],
   "note": "Quorum intersection"
  },
  {
   "property": "C02",
   "status": "proved",
   "theorems": [
    "C02_validity_has_honest",
    "C02_validity_meets_quorum",
    "C02_validity_value"
   ],
   "note": "Validity threshold contains an honest member and meets every quorum"
  },
  {
   "property": "C03",
   "status": "proved",
   "theorems": [
    "C03_certificate_needs_quorum",
    "C03_append_outcome",
    "C03_quorum_gives_certificate"
   ],
   "note": "A certificate is only assembled from a quorum of distinct, verified committee votes"
  },
  {
   "property": "C04",
   "status": "proved",
   "theorems": [
    "C04_bitmap_round_trip",
    "C04_unknown_voter_rejected",
    "C04_weight_is_number_of_keys",
    "C04_bitmap_decoding"
   ],
   "note": "Certificate signer bitmap is faithful"
  },
  {
   "property": "C05",
   "status": "proved",
   "theorems": [
    "C05_nothing_lost_or_duplicated",
    "C05_release_iff_quorum",
    "C05_rounds_are_independent"
   ],
   "note": "Parents are handed to the proposer only with a quorum, each origin once"
  },
  {
   "property": "C06",
   "status": "proved",
   "theorems": [
    "C06_one_vote_per_slot",
    "C06_new_votes_are_strictly_newer",
    "C06_votes_are_durable_before_sent"
   ],
   "note": "A node never signs two different headers for the same author, epoch and round, even across crashes"
  },
  {
   "property": "C07",
   "status": "proved",
   "theorems": [
    "C07_one_certificate_per_slot",
    "C07_one_certificate_per_slot_received"
   ],
   "note": "No two certificates for one slot"
  },
  {
   "property": "C08",
   "status": "proved",
   "theorems": [
    "C08_commit_sequences_agree",
    "C08_order_agrees_before_the_fork",
    "C08_restart_outside_window_refuted"
   ],
   "note": "Proved for all nodes that share the epoch's settings and whose restarts satisfy the store assumption and find the newest final scores in the recovery window; see DESIGN.md for what happens outside the window."
  },
  {
   "property": "C09",
   "status": "proved",
   "theorems": [
    "C09_no_certificate_twice",
    "C09_rounds_move_forward"
   ],
   "note": "No certificate is committed twice"
  },
  {
   "property": "C10",
   "status": "proved",
   "theorems": [
    "C10_subdag_shape",
    "C10_parents_accounted_for",
    "C10_complete_history_refuted"
   ],
   "note": "The stronger completeness claim is refuted by C10_complete_history_refuted (a witness run of the model)."
  },
  {
   "property": "C11",
   "status": "proved",
   "theorems": [
    "C11_monotone_commits"
   ],
   "note": "Leader rounds and commit timestamps are monotone"
  },
  {
   "property": "C12",
   "status": "proved",
   "theorems": [
    "C12_leader_has_support"
   ],
   "note": "A leader is committed only with f+1 support or through a chain of linked leaders"
  },
  {
   "property": "C13",
   "status": "proved",
   "theorems": [
    "C13_table_well_formed",
    "C13_leader_is_eligible",
    "C13_round_robin",
    "C13_every_member_leads",
    "C13_enough_good_nodes"
   ],
   "note": "Leader swap table is well formed"
  },
  {
   "property": "C14",
   "status": "proved",
   "theorems": [
    "C14_bad_budget_exact",
    "C14_scoring_members_within_budget",
    "C14_never_everybody",
    "C14_budget_refuted"
   ],
   "note": "The budget as documented in the code is false (C14_budget_refuted: four members, two bad, budget one; C14_extreme: seven members, six bad). C14_bad_budget_exact is the exact rule, for any square root function that maps 0 to 0."
  },
  {
   "property": "C15",
   "status": "proved",
   "theorems": [
    "C15_scores_are_exact"
   ],
   "note": "Reputation scores always cover exactly the committee"
  },
  {
   "property": "C16",
   "status": "proved",
   "theorems": [
    "C16_randomness_is_the_fold",
    "C16_restart_keeps_the_chain",
    "C16_cursor_mismatch_is_an_error"
   ],
   "note": "Seed chain: randomness is a fold over the committed prefix and survives restart"
  },
  {
   "property": "C17",
   "status": "proved",
   "theorems": [
    "C17_nonce_roundtrip",
    "C17_nonce_order",
    "C17_worker_id_roundtrip",
    "C17_first_batch",
    "C17_difficulty_injective"
   ],
   "note": "Nonce and worker id encodings are lossless"
  },
  {
   "property": "C18",
   "status": "proved",
   "theorems": [
    "C18_no_overflow_and_floor",
    "C18_step_bounds",
    "C18_monotone_in_usage",
    "C18_zero_target"
   ],
   "note": "Base fee update never overflows and moves at most one eighth"
  },
  {
   "property": "C19",
   "status": "proved",
   "theorems": [
    "C19_recorded_fee_is_entered_fee",
    "C19_entry_fee_value",
    "C19_static_ignores_data",
    "C19_wide_word_is_error"
   ],
   "note": "Base fee recorded at epoch close is the fee read at epoch entry"
  },
  {
   "property": "C20",
   "status": "proved",
   "theorems": [
    "C20_worker_totals_exact",
    "C20_resize_keeps_slots",
    "C20_inc_block_total",
    "C20_withdrawals_exact",
    "C20_withdrawals_sum",
    "C20_restart_rebuilds_totals"
   ],
   "note": "Gas and reward accumulation is exact"
  },
  {
   "property": "C21",
   "status": "proved",
   "theorems": [
    "C21_causal_order",
    "C21_gc_round_at_forwarding",
    "C21_store_follows_forwarding",
    "C21_forwarded_at_most_once_per_arrival",
    "C21_nothing_lost",
    "C21_pending_means_waiting"
   ],
   "note": "For histories whose storage writes succeed and whose certificates keep the parent-round relation voters enforce; C21_failed_write_refuted and C22_inconsistent_rounds_refuted show both conditions are needed."
  },
  {
   "property": "C22",
   "status": "proved",
   "theorems": [
    "C22_maps_agree",
    "C22_no_bookkeeping_errors",
    "C22_sweep_completes"
   ],
   "note": "Same conditions as C21; C22_inconsistent_rounds_refuted is the run without the round relation."
  },
  {
   "property": "C23",
   "status": "proved",
   "theorems": [
    "C23_behaves_like_byte_array",
    "C23_never_panics",
    "C23_written_bytes_read_back"
   ],
   "note": "Buffered file behaves like a byte array"
  },
  {
   "property": "C24",
   "status": "proved",
   "theorems": [
    "C24_behaves_like_record_log",
    "C24_fetch_returns_appended",
    "C24_committed_record_survives_crash",
    "C24_iteration_in_order",
    "C24_torn_tail",
    "C24_only_checked_values",
    "C24_oversize_record_refuted",
    "C24_commit_retry_refuted"
   ],
   "note": "Excluded cases are refuted by runs of the model: C24_oversize_record_refuted (append accepts what fetch refuses) and C24_commit_retry_refuted (a commit retried after a partial flush answers Ok and has lost the record)."
  },
  {
   "property": "C25",
   "status": "proved",
   "theorems": [
    "C25_behaves_like_list",
    "C25_load_returns_saved",
    "C25_synced_entry_survives_crash",
    "C25_torn_header_refuted"
   ],
   "note": "Position index is an append-only array"
  },
  {
   "property": "C26",
   "status": "proved",
   "theorems": [
    "C26_index_is_a_map",
    "C26_lookup",
    "C26_damage_never_lies",
    "C26_bloom_no_false_negative",
    "C26_code_cfg_ok",
    "C26_tiny_ok",
    "C26_tiny_run",
    "C26_crash_run",
    "C26_length_is_not_key_count_refuted",
    "C26_unreadable_overflow_refuted",
    "C26_failed_split_refuted",
    "C26_crash_in_sync_refuted",
    "C26_refuting_cfgs_ok"
   ],
   "note": "For runs in which writes succeed. Refuting runs show what does not hold: C26_length_is_not_key_count_refuted, C26_unreadable_overflow_refuted, C26_failed_split_refuted, C26_crash_in_sync_refuted."
  },
  {
   "property": "C27",
   "status": "proved",
   "theorems": [
    "C27_published_has_validity",
    "C27_published_has_honest",
    "C27_map_capped",
    "C27_published_number_grows",
    "C27_two_tallies_per_number",
    "C27_not_crowded_out",
    "C27_one_number_fits",
    "C27_honest_never_throttled",
    "C27_counted_quorum_gets_out",
    "C27_vote_gate",
    "C27_votes_capped",
    "C27_many_numbers_refuted"
   ],
   "note": "Crowding out is excluded when |numbers| * (2f+1) <= max(n, 20), which covers one number for every committee; with many future numbers it is refuted by a run (C27_many_numbers_refuted, the residual the code documents). Clock, libp2p and the topic check are not modelled."
  },
  {
   "property": "C28",
   "status": "proved",
   "theorems": [
    "C28_votes_only_for_admissible_headers"
   ],
   "note": "Header admission rules"
  },
  {
   "property": "C29",
   "status": "proved",
   "theorems": [
    "C29_one_header_per_round",
    "C29_sent_header_survives_crash",
    "C29_rounds_never_go_back",
    "C29_unreadable_record_refuted",
    "C29_lowered_parents_refuted"
   ],
   "note": "The two conditions are needed: C29_unreadable_record_refuted and C29_lowered_parents_refuted are runs of the model that break the claim without them."
  },
  {
   "property": "C30",
   "status": "proved",
   "theorems": [
    "C30_accepted_batch_is_unchanged",
    "C30_verified_means_backed",
    "C30_unvouched_certificate_is_checked",
    "C30_facts_pass_to_ancestors"
   ],
   "note": "An indirectly verified certificate's own signer bitmap and signature are never looked at (C30_indirect_signature_is_not_checked): only its header is vouched for."
  },
  {
   "property": "C31",
   "status": "proved",
   "theorems": [
    "C31_released_certificate_is_final",
    "C31_released_certificate_survives_crash",
    "C31_one_certificate_per_header",
    "C31_republish_race_refuted"
   ],
   "note": "C31_republish_race_refuted is a run of the model in which a re-proposed header publishes a record that is still only in memory and a crash leads to a second, different certificate."
  },
  {
   "property": "C32",
   "status": "proved",
   "theorems": [
    "C32_verified_means_super_quorum",
    "C32_two_records_share_honest_signer",
    "C32_one_certified_record",
    "C32_accepted_record",
    "C32_sync_only_truth",
    "C32_sync_progress",
    "C32_producer_matches_verifier",
    "C32_collector_saves_only_verified",
    "C32_quorum_becomes_certificate",
    "C32_honest_votes_certify",
    "C32_different_committees_refuted",
    "C32_one_member_refuted"
   ],
   "note": "Holds for records with the same committee. C32_different_committees_refuted: two different shrunken committees accepted against one trusted committee can have disjoint quorums; C32_one_member_refuted: a committee of one never certifies."
  },
  {
   "property": "C33",
   "status": "proved",
   "theorems": [
    "C33_committee_shape",
    "C33_succeeds_iff",
    "C33_leaving_only_to_fill",
    "C33_full_pool",
    "C33_shuffle_one_to_one"
   ],
   "note": "New committee selection is a deterministic, duplicate-free choice"
  },
  {
   "property": "C34",
   "status": "proved",
   "theorems": [
    "C34_counts_exact",
    "C34_restart_rebuilds",
    "C34_restart_invisible",
    "C34_stale_hint_miscounts_refuted",
    "C34_stale_hint_loses_output_refuted",
    "C34_hint_fresh_within_epoch"
   ],
   "note": "Restart recounts leaders exactly"
  },
  {
   "property": "C35",
   "status": "proved",
   "theorems": [
    "C35_acknowledged_writes_survive",
    "C35_read_your_inserts",
    "C35_no_success_after_lost_write",
    "C35_read_your_removes_refuted",
    "C35_cache_mode_read_your_inserts_refuted",
    "C35_sync_persist_not_durable_refuted"
   ],
   "note": "An acknowledged write survives crashes"
  },
  {
   "property": "C36",
   "status": "proved",
   "theorems": [
    "C36_only_missing_parents_are_refused"
   ],
   "note": "Ordering never fails on certificates of a correct DAG except for a missing parent"
  },
  {
   "property": "C37",
   "status": "proved",
   "theorems": [
    "C37_supported_leader_is_committed"
   ],
   "note": "A leader with enough support is committed at once"
  },
  {
   "property": "C38",
   "status": "proved",
   "theorems": [
    "C38_first_write_wins",
    "C38_gap_free",
    "C38_certified_read",
    "C38_scan_exact",
    "C38_certified_stand_in_refuted",
    "C38_flush_reports_failures",
    "C38_quiet_flush_means_applied",
    "C38_shared_error_slot_refuted",
    "C38_number_to_epoch",
    "C38_finals_match_records",
    "C38_divergent_record_sticks",
    "C38_recovery_does_not_replace_refuted"
   ],
   "note": "C38_shared_error_slot_refuted, C38_certified_stand_in_refuted and C38_recovery_does_not_replace_refuted delimit the claim. Half-done appends, read failures and polling deadlines are not modelled."
  },
  {
   "property": "C39",
   "status": "proved",
   "theorems": [
    "C39_supply_tracks_balances",
    "C39_holders_stay_finite",
    "C39_events_account_for_supply",
    "C39_only_governance",
    "C39_timelock",
    "C39_no_mint_no_claim",
    "C39_zero_mint_cancels",
    "C39_failed_or_static_changes_nothing",
    "C39_value_only_through_burn",
    "C39_total_supply_view",
    "C39_claim_succeeds",
    "C39_burned_within_supply",
    "C39_burn_exact",
    "C39_faucet_mint_exact",
    "C39_faucet_roles",
    "C39_direct_call_only_refuted",
    "C39_unseeded_supply_refuted"
   ],
   "note": "C39_direct_call_only_refuted (delegatecall inherits the caller) and C39_unseeded_supply_refuted (genesis leaves the supply slot at zero) delimit the claim. Keccak slot separation is a parameter."
  },
  {
   "property": "C40",
   "status": "proved",
   "theorems": [
    "C40_penalty_exact",
    "C40_penalty_shape",
    "C40_fees_conserve",
    "C40_fee_shares",
    "C40_system_calls_free",
    "C40_using_less_never_costs_more_refuted"
   ],
   "note": "For transactions revm's validation admits. C40_using_less_never_costs_more_refuted: a caller can lower its bill by wasting gas."
  },
  {
   "property": "C41",
   "status": "proved",
   "theorems": [
    "C41_saved_is_the_chain",
    "C41_executed_once_in_order",
    "C41_executed_is_durable",
    "C41_keeps_running",
    "C41_crash_points",
    "C41_two_nodes_agree",
    "C41_slot_ahead_refuted",
    "C41_stale_slot_refuted",
    "C41_mode_change_skips_refuted",
    "C41_mode_change_gap_refuted",
    "C41_executed_before_durable_refuted"
   ],
   "note": "good_history excludes exactly the crash and mode-change windows; C41_crash_points shows which kills that is, and each excluded window is refuted by a run (C41_slot_ahead_refuted, C41_stale_slot_refuted, C41_mode_change_skips_refuted, C41_mode_change_gap_refuted, C41_executed_before_durable_refuted). Bullshark's recovery and agreement on sub-dags are parameters here (C07, C08, C31); packs are used as C42's log."
  },
  {
   "property": "C42",
   "status": "proved",
   "theorems": [
    "C42_pack_is_a_log",
    "C42_persisted_survive",
    "C42_save_answer",
    "C42_batch_answer_is_genuine",
    "C42_first_output_refuted",
    "C42_torn_metadata_refuted",
    "C42_batch_lookup_refuted",
    "C42_low_number_refuted"
   ],
   "note": "good_history excludes the crash of C42_first_output_refuted; C42_torn_metadata_refuted, C42_batch_lookup_refuted and C42_low_number_refuted further delimit the claim."
  },
  {
   "property": "C43",
   "status": "proved",
   "theorems": [
    "C43_import_is_the_true_epoch",
    "C43_import_epoch_zero",
    "C43_outputs_are_true",
    "C43_installed_metadata",
    "C43_failed_import_changes_nothing",
    "C43_never_truncates",
    "C43_honest_stream_accepted",
    "C43_addresses_refuted",
    "C43_epoch_zero_refuted",
    "C43_leaderless_panics_refuted"
   ],
   "note": "Collision freedom is assumed only between streamed and true headers/batches. Limits: C43_addresses_refuted, C43_epoch_zero_refuted, C43_leaderless_panics_refuted."
  },
  {
   "property": "C44",
   "status": "proved",
   "theorems": [
    "C44_saved_in_order",
    "C44_no_error",
    "C44_saved_true_and_increasing",
    "C44_stored_true",
    "C44_drained_is_linked",
    "C44_catches_up",
    "C44_walk_fills",
    "C44_walk_stops",
    "C44_gap_covered_exact",
    "C44_gap_filled",
    "C44_stall_asks_for_all",
    "C44_walk_to_zero_waits",
    "C44_nonvacuous",
    "C44_example_walk_stuck",
    "C44_lag_skips_an_output_refuted",
    "C44_wrong_committee_refuted"
   ],
   "note": "Environment assumptions are good_event in FolSpec.v (tips C27, packs C43, slots C41/C42). Lag and execution failure: C44_saved_true_and_increasing. Limits: C44_walk_to_zero_waits, C44_lag_skips_an_output_refuted, C44_wrong_committee_refuted."
  },
  {
   "property": "C45",
   "status": "proved",
   "theorems": [
    "C45_header_round_trip",
    "C45_header_received",
    "C45_header_digest",
    "C45_header_digest_only_visible",
    "C45_header_wire_unique_refuted",
    "C45_batch_wire",
    "C45_batch_digest",
    "C45_epoch_record_wire",
    "C45_epoch_record_digest",
    "C45_sub_dag_digest",
    "C45_sub_dag_digest_without_committee_refuted",
    "C45_sub_dag_digest_any_committee",
    "C45_chain_digest",
    "C45_consensus_header_digest",
    "C45_signature_meaning",
    "C45_signature_purposes",
    "C45_vote_is_no_result",
    "C45_seed_chain",
    "C45_node_layouts_exclusive",
    "C45_node_record_round_trip",
    "C45_old_node_record_round_trip",
    "C45_node_record_signed",
    "C45_node_record_authentic"
   ],
   "note": "Byte-level model of BCS and of every digest preimage and signed message, checked against the two frozen header vectors of the source. Hash collisions are exhibited (the two concrete preimages), never assumed away in general. Findings: the sub-dag digest does not hash the number of headers, so it is unique only for a known committee size (refuted otherwise with concrete bytes); header wire bytes are not unique (bcs does not check sets); votes and results share a signing scope and are kept apart by the length of their preimages only; node records and network-key texts are signed without any intent prefix and are kept apart by their first byte."
  },
  {
   "property": "C46",
   "status": "proved",
   "theorems": [
    "C46_validate_exact",
    "C46_report",
    "C46_fatal_reasons",
    "C46_built_limits",
    "C46_built_greedy",
    "C46_built_batch_accepted",
    "C46_pool_update",
    "C46_REFUTED_builder_never_punished",
    "C46_REFUTED_gas_limit_of_built",
    "C46_waiter",
    "C46_quorum_exact",
    "C46_quorum_two_thirds",
    "C46_quorum_verdict",
    "C46_quorum_failure",
    "C46_REFUTED_failure_kind",
    "C46_seal",
    "C46_certified_available",
    "C46_certified_available_no_loss",
    "C46_losses",
    "C46_certified_valid",
    "C46_stored_valid",
    "C46_same_batch",
    "C46_vote_needs_batches",
    "C46_request_sound",
    "C46_serve_exact",
    "C46_fetch_live",
    "C46_fetch_sound",
    "C46_certified_fetchable",
    "C46_REFUTED_valid_is_servable",
    "C46_one_batch_poisons",
    "C46_small_batches_servable",
    "C46_REFUTED_available_after_crash",
    "C46_REFUTED_claimed_worker",
    "C46_REFUTED_sync_all_or_nothing"
   ],
   "note": "Workers of one epoch with one worker id and one base fee; transactions opaque (recover is a parameter), batches at byte level (C45's encoding). The global theorems quantify over all event lists; a member that crashed with an unwritten cache is counted in g_lost (ghost) and the availability bound loses one per such member - without that the claim is refuted by C46_REFUTED_available_after_crash. Liveness (C46_fetch_live, C46_certified_fetchable) is for requests of up to 500 digests whose batches fit a frame; C46_small_batches_servable gives a sufficient size, C46_REFUTED_valid_is_servable shows that valid is not enough."
  },
  {
   "property": "C47",
   "status": "proved",
   "theorems": [
    "C47_certified_dag_is_sound",
    "C47_agreement",
    "C47_ordered_headers_were_vetted",
    "C47_one_signature_per_slot",
    "C47_accepted_means_quorum_signed"
   ],
   "note": "Composition of C04/C06/C28/C29/C31/C08. One event is one step of one component of one honest validator; faulty ones appear only as event contents. Assumed of the environment (NetSpec.step_ok / network_ok): an aggregate or single signature that verifies for an honest key was made by it earlier; headers that occur have distinct digests and no digest cycle; at most (n-1)/3 faulty per committee; no vote or proposal records at the start; C29's quiet_start (the excluded proposer window) for each proposer event; the store a vote check reads holds certificates that validator accepted, its genesis lookup the genesis certificates. The proposer's committee position and the certifier's accepted set are ghost-free; 'accepted' means handed verified to the certificate manager (whether its parents are present is C21's matter). C47_example is a complete concrete execution with a faulty member, a fetch vouched for by a child, a refused forgery, and a commit."
  },
  {
   "property": "C48",
   "status": "proved",
   "theorems": [
    "C48_round_trip",
    "C48_read_means_written",
    "C48_found_was_recorded",
    "C48_settled_is_found",
    "C48_at_most_the_last_update_is_lost",
    "C48_save_settles",
    "C48_new_epoch_is_synced",
    "C48_hint",
    "C48_REFUTED_two_updates_in_flight",
    "C48_REFUTED_acknowledged_means_written",
    "C48_REFUTED_kill_then_crash",
    "C48_REFUTED_hint_always_wins"
   ],
   "note": "crc is any function into u32; that torn contents do not check is the hypothesis in survives/ev_ok (a machine crash leaves an old content, a newer one, or bytes that do not check). Directory entries of just created slot files are taken as durable (the code syncs the directory only in write_latest_consensus_hint). C41's list of possible slot values after a crash (last synced, or one newer) is C48_at_most_the_last_update_is_lost."
  },
  {
   "property": "C49",
   "status": "proved",
   "theorems": [
    "C49_lookup_exact",
    "C49_one_record_per_peer",
    "C49_records_named",
    "C49_disconnected_count_exact",
    "C49_banned_count_never_low",
    "C49_banned_count_exact",
    "C49_address_count",
    "C49_address_ban_earned",
    "C49_capacity",
    "C49_members_not_banned",
    "C49_example",
    "C49_example_capacity",
    "C49_example_forgiven",
    "C49_refuted_phantom_bans",
    "C49_refuted_pending_ban_dropped",
    "C49_refuted_identity_takeover"
   ],
   "note": "orderly (PeersSpec) is the side condition for exact banned counts: no EDisconnect hits a record that is already banned, and no dial/connect race of the kind refuted in C49_refuted_phantom_bans. Network keys are identified with the peer ids they convert to. Pending dial replies, routability and connection direction are not modelled."
  },
  {
   "property": "C50",
   "status": "proved",
   "theorems": [
    "C50_score_range",
    "C50_exempt_untouched",
    "C50_exempt_heartbeat",
    "C50_penalty_exact",
    "C50_fatal_bans",
    "C50_heartbeat_never_bans",
    "C50_ban_lasts",
    "C50_lock_set",
    "C50_heartbeat_updates",
    "C50_new_key_no_gain",
    "C50_example_cfg",
    "C50_example",
    "C50_refuted_disconnect_ban_never_lifted",
    "C50_refuted_disconnect_ban_happens",
    "C50_refuted_stale_lock",
    "C50_refuted_allowlist",
    "C50_refuted_ban_shed",
    "C50_refuted_banned_stays_connected"
   ],
   "note": "Scores are integers in a fixed unit; the exponential decay is a parameter constrained by cfg_ok (moves towards zero, never across). Float rounding is not modelled."
  },
  {
   "property": "C51",
   "status": "proved",
   "theorems": [
    "C51_stored_chain_is_the_committed_one",
    "C51_chain_unique",
    "C51_replicas_agree",
    "C51_never_rewritten",
    "C51_each_batch_once",
    "C51_closing_block_pays_all_leaders",
    "C51_announced_is_durable",
    "C51_head_is_durable",
    "C51_restart_catches_up",
    "C51_no_transaction_twice",
    "C51_reexecution_reproduces",
    "C51_persist_all_or_nothing",
    "C51_third_attempt_is_the_last",
    "C51_refuted_late_fault_not_retryable"
   ],
   "note": "The EVM, system calls, roots and hash are parameters (deterministic functions, nothing else assumed unless a theorem says so); the outputs are ordered as C01/C05/C11/C41 give them (record committed)."
  },
  {
   "property": "C52",
   "status": "proved",
   "theorems": [
    "C52_exact",
    "C52_bounded",
    "C52_insert_result",
    "C52_remove_result",
    "C52_expiry_exact",
    "C52_held_for_duration",
    "C52_gone_after_duration",
    "C52_example",
    "C52_example_zero_cap"
   ],
   "note": "Instants are naturals; the HashSet and VecDeque of the cache are lists; the expect calls are modelled as a None result, proved unreachable."
  },
  {
   "property": "C53",
   "status": "proved",
   "theorems": [
    "C53_shut_out",
    "C53_open_to_others",
    "C53_self_spared",
    "C53_never_panics",
    "C53_ban_announced",
    "C53_temp_ban_ends",
    "C53_blacklisted_are_shut_out",
    "C53_blacklist_bounded",
    "C53_blacklist_expires",
    "C53_example",
    "C53_example_announced",
    "C53_example_ends",
    "C53_refuted_blacklist_lasts",
    "C53_refuted_trusted_leaves_blacklist",
    "C53_refuted_late_member_forgiven",
    "C53_refuted_new_key_announced",
    "C53_example_clean_lift"
   ],
   "note": "Builds on the peer-table model of C49/C50 (PeersModel). Queued events are delivered by explicit poll events; libp2p itself (swarm, gossipsub) is represented by the calls it makes. The blacklist theorems assume clean_run (no silent lift), the refuted theorems show it is needed."
  },
  {
   "property": "C54",
   "status": "proved",
   "theorems": [
    "C54_contents",
    "C54_bounded",
    "C54_operator_peers_resolve",
    "C54_members_resolve",
    "C54_member_record_cached",
    "C54_other_records_dropped",
    "C54_timestamps_forward",
    "C54_endpoints_valid",
    "C54_committee_endpoints",
    "C54_only_missing_searched",
    "C54_example",
    "C54_refuted_never_regress"
   ],
   "note": "Signature checks on records happen before the modelled entry point (C45 covers the signed bytes)."
  },
  {
   "property": "C55",
   "status": "proved",
   "theorems": [
    "C55_prune",
    "C55_heartbeat_connections",
    "C55_limit",
    "C55_discovery_table",
    "C55_discovery_heartbeat",
    "C55_exchange_bounded",
    "C55_discovery_sources",
    "C55_exchange_content",
    "C55_example_prune",
    "C55_example_prune_order",
    "C55_example_discovery",
    "C55_refuted_max_peers",
    "C55_refuted_second_connection",
    "C55_refuted_discovery_bound"
   ],
   "note": "Random choices (shuffle, choose_multiple) are driven by an arbitrary index list, proved able to produce every selection and order (choose_any). The f32 limit computations are parameters."
  },
  {
   "property": "C56",
   "status": "proved",
   "theorems": [
    "C56_stored_certificates_verify",
    "C56_counted_votes_are_signed",
    "C56_bounded",
    "C56_refused_changes_nothing",
    "C56_penalties",
    "C56_admitted_votes",
    "C56_signs_one_record",
    "C56_votes_are_on_disk",
    "C56_quorum_of_votes_certifies",
    "C56_running_collector_certifies",
    "C56_restart_revotes",
    "C56_old_vote_crowds_out_refuted",
    "C56_early_vote_charged_refuted",
    "C56_record_skipped_refuted",
    "C56_unflushed_close_refuted",
    "C56_epoch0_signed_twice_refuted"
   ],
   "note": "Turns of a collector are those of C32. Channels (capacity 10000) never fill, epochs stay below u32::MAX. BLS aggregation is a parameter: valid single signatures aggregate to a verifying certificate."
  },
  {
   "property": "C57",
   "status": "proved",
   "theorems": [
    "C57_delivery",
    "C57_nothing_lost",
    "C57_no_silent_hole",
    "C57_isolation",
    "C57_manager_survives",
    "C57_capacity",
    "C57_floor_is_min",
    "C57_floor_safe",
    "C57_floor_waits",
    "C57_report_counts",
    "C57_replay",
    "C57_replay_error_last",
    "C57_heights_increase",
    "C57_others_pass",
    "C57_catch_up",
    "C57_fair",
    "C57_shares",
    "C57_poll_sound",
    "C57_first_gap_refuted",
    "C57_below_start_refuted",
    "C57_seam_refuted",
    "C57_floor_regresses_refuted",
    "C57_last_report_lost_refuted"
   ],
   "note": "A Chain is the list of its block numbers. Fewer than 2^64 notifications. select_all over the event channels is one source."
  },
  {
   "property": "C58",
   "status": "proved",
   "theorems": [
    "C58_never_lost",
    "C58_resent_batches_kept",
    "C58_acks_recorded",
    "C58_done_was_reported",
    "C58_committed_once",
    "C58_report_effect",
    "C58_fifo",
    "C58_progress",
    "C58_header_shape",
    "C58_parents_of_previous_round",
    "C58_only_this_epoch",
    "C58_restart_sends_recorded_header",
    "C58_no_early_header",
    "C58_max_delay_proposes",
    "C58_full_committee_is_ready",
    "C58_report_overtakes_refuted",
    "C58_resend_after_commit_refuted",
    "C58_restart_genesis_parents_refuted",
    "C58_timer_in_flight_refuted"
   ],
   "note": "A header is its round, epoch, payload and parents. The guard record is a cell whose reads succeed (durability: C29). Timers are events at any moment; their durations are not modelled."
  },
  {
   "property": "C59",
   "status": "proved",
   "theorems": [
    "C59_store",
    "C59_writes",
    "C59_response_sound",
    "C59_response_complete",
    "C59_response_exact",
    "C59_causal",
    "C59_request",
    "C59_request_limits",
    "C59_frames",
    "C59_frames_bounded",
    "C59_fan_out",
    "C59_fetcher",
    "C59_one_task",
    "C59_catch_up",
    "C59_equivocation_refuted",
    "C59_epoch_clear_refuted",
    "C59_gap_refuted",
    "C59_bound_wrap_refuted"
   ],
   "note": "The roaring crate is assumed to return the set it was given with a truthful header (roaring_ok; an instance is exhibited). Certificates' contents are checked elsewhere (C05, C07). Database errors end the task and are left out."
  },
  {
   "property": "C60",
   "status": "proved",
   "theorems": [
    "C60_hosts",
    "C60_lowercase",
    "C60_answers",
    "C60_batch",
    "C60_tallies",
    "C60_no_single_censor",
    "C60_owner_first",
    "C60_lift_refuted",
    "C60_no_redial",
    "C60_admission",
    "C60_capacity",
    "C60_disburse",
    "C60_rotation",
    "C60_pool",
    "C60_pool_grace",
    "C60_backoff",
    "C60_cooldown",
    "C60_cooldown_refuted",
    "C60_pool_refuted",
    "C60_abort_refuted"
   ],
   "note": "Endpoint answers are arbitrary per transaction and validator; URLs and keys are numbers; the host part of a URL is a parameter assumed well formed (bytes below 256). Names are not resolved: a public name pointing to a private address is allowed by the code and by the statement."
  },
  {
   "property": "C61",
   "status": "proved",
   "theorems": [
    "C61_export_exact",
    "C61_verify_exact",
    "C61_read_paths",
    "C61_readers_mixed",
    "C61_export_missing_code",
    "C61_genesis_header_ignored",
    "C61_truncated",
    "C61_import_shape",
    "C61_restore_sound",
    "C61_round_trip",
    "C61_export_at_tip",
    "C61_ready_enters",
    "C61_load_state",
    "C61_crash",
    "C61_failed_leaves_nothing",
    "C61_existing_untouched",
    "C61_reads",
    "C61_floor_survives_refusal_refuted",
    "C61_footer_unchecked_refuted",
    "C61_verified_restores_refuted",
    "C61_failure_cleans_genesis_dir_refuted",
    "C61_example_round_trip",
    "C61_example_load",
    "C61_example_swapped",
    "C61_example_cuts"
   ],
   "note": "Keccak, RLP, the state root and contract reads are parameters with the usual injectivity (the root commits to the state up to the two spellings of no code). The record container's framing is C24; restore_consensus_and_records is one step that succeeds or fails (C32, C43). Body segments, stage checkpoints and history indices are not modelled; a committed transaction or file is one durable step."
  },
  {
   "property": "C62",
   "status": "proved",
   "theorems": [
    "C62_report_exact",
    "C62_report_counts",
    "C62_missing_class",
    "C62_previous",
    "C62_agrees_with_import",
    "C62_import_in_file_order",
    "C62_written_pack_valid",
    "C62_example",
    "C62_valid_imports_refuted",
    "C62_invalid_rejected_refuted"
   ],
   "note": "Opening the file (container header, epoch uid, framing: C17, C24) is not repeated: a file is the sequence its record iterator yields. Consensus numbers are unbounded. The order of extra-batch issues inside a group is a HashSet's, fixed here; issues are compared as a set."
  },
  {
   "property": "C63",
   "status": "proved",
   "theorems": [
    "C63_get_exact",
    "C63_records_exact",
    "C63_put_decided",
    "C63_records_bounded",
    "C63_providers_exact",
    "C63_provided_exact",
    "C63_announce_decided",
    "C63_provided_keys_bounded",
    "C63_networks_separate",
    "C63_start_tolerates",
    "C63_put_request_exact",
    "C63_requests_only_renew",
    "C63_announce_request_exact",
    "C63_live_means",
    "C63_example",
    "C63_cap_refuted",
    "C63_self_announce_refuted",
    "C63_tolerant_records_refuted",
    "C63_replay_refuted",
    "C63_workers_share_refuted"
   ],
   "note": "The conversion between the monotonic and the system clock is taken as exact and the clock never goes back; database calls succeed; the key hash is injective (hypothesis). Whether a put's record is valid (signature, publisher) and its timestamp are parameters."
  },
  {
   "property": "C64",
   "status": "proved",
   "theorems": [
    "C64_segmentation",
    "C64_oversize",
    "C64_overlong_body",
    "C64_memory",
    "C64_decode_exact",
    "C64_unambiguous",
    "C64_encode_exact",
    "C64_stream_stops",
    "C64_writes_messages",
    "C64_roundtrip",
    "C64_cut_short",
    "C64_stream",
    "C64_example",
    "C64_many_encodings_refuted",
    "C64_huge_limit_refuted"
   ],
   "note": "BCS, the compression of one snappy block and its checksum are parameters (BCS and block decompression invert, the checksum is 32 bits, where used); the snappy frame format follows the crate snap, which is not in the repository. Allocation is counted as contents, not capacity."
  },
  {
   "property": "C65",
   "status": "proved",
   "theorems": [
    "C65_frames",
    "C65_tags",
    "C65_transfer",
    "C65_nothing",
    "C65_cut",
    "C65_request",
    "C65_complete_exact",
    "C65_handed_over",
    "C65_example",
    "C65_request_encodings_refuted"
   ],
   "note": "On top of C64 with its parameters. Timeouts are the waiting state; a writer cut off anywhere has put a beginning of its bytes on the stream; after a write abandoned inside a frame a further Err frame is covered by the theorems about arbitrary bytes only. Limits on rates and slots are not modelled."
  },
  {
   "property": "C66",
   "status": "proved",
   "theorems": [
    "C66_gateway_limit",
    "C66_exact",
    "C66_client_limit",
    "C66_sweeps_invisible",
    "C66_table_bounded",
    "C66_reclaimed",
    "C66_one_bucket_per_client",
    "C66_example",
    "C66_clock_before_lock_refuted",
    "C66_refused_requests_starve_refuted",
    "C66_untracked_refuted"
   ],
   "note": "Tokens are exact (the code has f64), times are nanoseconds, one request is one step. A client's limits are nonzero by their types."
  },
  {
   "property": "C67",
   "status": "proved",
   "theorems": [
    "C67_no_lost_wakeup",
    "C67_quiescent",
    "C67_wakes",
    "C67_right_value",
    "C67_no_panic",
    "C67_no_leak",
    "C67_example",
    "C67_gone_refuted"
   ],
   "note": "The 255 shards are one map, the counter of pending registrations is left out, database reads and writes succeed, and an insert is visible at once (the layered database writes memory first)."
  }
 ]
}