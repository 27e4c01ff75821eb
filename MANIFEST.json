{
 "claims": [
  {
   "property": "C01",
   "status": "proved",
   "theorems": [
    "Verif.Key.Properties.C01_int_key_order"
   ],
   "note": ""
  },
  {
   "property": "C02",
   "status": "proved",
   "theorems": [
    "Verif.Key.Properties.C02_int_key_roundtrip"
   ],
   "note": ""
  },
  {
   "property": "C03",
   "status": "proved",
   "theorems": [
    "Verif.Key.Properties.C03_float_key_order",
    "Verif.Key.Properties.C03_float_key_roundtrip",
    "Verif.Key.Properties.C03_nan_refuted"
   ],
   "note": "NaN excluded by the statement; C03_nan_refuted shows NaN does not survive."
  },
  {
   "property": "C04",
   "status": "proved",
   "theorems": [
    "Verif.Key.Properties.C04_primary_key_order",
    "Verif.Key.Properties.C04_primary_key_accepted",
    "Verif.Key.Properties.C04_secondary_key_order",
    "Verif.Key.Properties.C04_secondary_key_accepted",
    "Verif.Key.Properties.C04_prefix_scan"
   ],
   "note": "Strings free of NUL bytes."
  },
  {
   "property": "C05",
   "status": "proved",
   "theorems": [
    "Verif.Key.Properties.C05_distinct_keys",
    "Verif.Key.Properties.C05_distinct_keys_float",
    "Verif.Key.Properties.C05_nul_refuted"
   ],
   "note": "Strings free of NUL bytes; C05_nul_refuted is the collision otherwise."
  },
  {
   "property": "C06",
   "status": "partial",
   "theorems": [
    "Verif.Key.Properties.C06_key_roundtrip_partial",
    "Verif.Key.Properties.C06_pk_suffix_roundtrip",
    "Verif.Key.Properties.C06_rollup_refuted",
    "Verif.Key.Properties.C06_nine_columns_refuted"
   ],
   "note": "Holds for PRIMARY, KEY and UNIQ indexes; false for rollup indexes with NULLs and undefined beyond 8 columns (refutations)."
  },
  {
   "property": "C07",
   "status": "partial",
   "theorems": [
    "Verif.Key.Properties.C07_decode_in_bounds_partial",
    "Verif.Key.Properties.C07_decode_defined_partial",
    "Verif.Key.Properties.C07_string_refuted",
    "Verif.Key.Properties.C07_empty_secondary_refuted"
   ],
   "note": "Holds for keys without STRING columns or ending in NUL; false in general (refutations)."
  },
  {
   "property": "C08",
   "status": "proved",
   "theorems": [
    "Verif.Key.Properties.C08_end_key_order",
    "Verif.Key.Properties.C08_end_key_infinity"
   ],
   "note": ""
  },
  {
   "property": "C09",
   "status": "partial",
   "theorems": [
    "Verif.Tso.Properties.C09_unique_partial",
    "Verif.Tso.Properties.C09_monotone_partial",
    "Verif.Tso.Properties.C09_stale_leader_refuted",
    "Verif.Tso.Properties.C09_late_start_refuted",
    "Verif.Tso.Properties.C09_late_request_refuted",
    "Verif.Tso.Properties.C09_late_update_refuted",
    "Verif.Tso.Properties.C09_negative_count_refuted",
    "Verif.Tso.Properties.C09_reset_refuted"
   ],
   "note": "Uniqueness holds in every ordinary execution; order holds per node and for the current raft leader. Full monotonicity is false (stale leader), and five kinds of step (late start thread, late request, late update, negative count, equal reset) produce duplicates: refutations."
  },
  {
   "property": "C10",
   "status": "proved",
   "theorems": [
    "Verif.Tso.Properties.C10_usable",
    "Verif.Tso.Properties.C10_packed_order",
    "Verif.Tso.Properties.C10_batch",
    "Verif.Tso.Properties.C10_store_cache"
   ],
   "note": "Requests for a positive count; resets to a non-negative logical part."
  },
  {
   "property": "C11",
   "status": "proved",
   "theorems": [
    "Verif.AutoInc.Properties.C11_disjoint_increasing",
    "Verif.AutoInc.Properties.C11_replicas_agree",
    "Verif.AutoInc.Properties.C11_snapshot_loads",
    "Verif.AutoInc.Properties.C11_restart_refuted"
   ],
   "note": "No drop of the counter or forced update in between and no 64-bit overflow; C11_restart_refuted shows each exclusion is needed."
  },
  {
   "property": "C12",
   "status": "proved",
   "theorems": [
    "Verif.AutoInc.Properties.C12_above_recorded",
    "Verif.AutoInc.Properties.C12_later_inserts_larger",
    "Verif.AutoInc.Properties.C12_unsigned_refuted"
   ],
   "note": "Ids below 2^63 and column not marked noskip; C12_unsigned_refuted: BIGINT UNSIGNED ids from 2^63 are not recorded."
  },
  {
   "property": "C13",
   "status": "proved",
   "theorems": [
    "Verif.AutoInc.Properties.C13_insert_ids",
    "Verif.AutoInc.Properties.C13_degraded_refuted"
   ],
   "note": "Id service reachable (C13_degraded_refuted: random ids in degraded mode can repeat). The cast of a generated id to a narrower column type is not modelled."
  },
  {
   "property": "C14",
   "status": "proved",
   "theorems": [
    "Verif.Raft.Properties.C14_log_answers",
    "Verif.Raft.Properties.C14_return_codes",
    "Verif.Raft.Properties.C14_gap_refused"
   ],
   "note": "Histories as raft produces them: consecutive indexes, non-decreasing terms, prewrite timestamps identify their requests; the protobuf codec is a parameter with a round-trip hypothesis. A write batch is atomic; entries below the first index are excluded for a region that stopped inside an operation (see C15)."
  },
  {
   "property": "C15",
   "status": "proved",
   "theorems": [
    "Verif.Raft.Properties.C15_crash_atomic",
    "Verif.Raft.Properties.C15_failed_write_refuted",
    "Verif.Raft.Properties.C15_below_first_refuted",
    "Verif.Raft.Properties.C15_reset_back_refuted"
   ],
   "note": "Stops between storage writes. Refutations show the exact limits in the code: truncate_suffix ignores a failed write, reads below the first index after a stop inside truncate_prefix, reset to an index below the first."
  },
  {
   "property": "C16",
   "status": "proved",
   "theorems": [
    "Verif.Raft.Properties.C16_terms",
    "Verif.Raft.Properties.C16_never_refuses"
   ],
   "note": ""
  },
  {
   "property": "C17",
   "status": "proved",
   "theorems": [
    "Verif.Raft.Properties.C17_filter_safe"
   ],
   "note": "The filter as a function on keys. In the code it is never installed on the raft log column family (see DESIGN.md findings)."
  },
  {
   "property": "C18",
   "status": "proved",
   "theorems": [
    "Verif.Lru.Properties.C18_find_value",
    "Verif.Lru.Properties.C18_recent_kept",
    "Verif.Lru.Properties.C18_size_bound",
    "Verif.Lru.Properties.C18_no_bad_access",
    "Verif.Lru.Properties.C18_no_leak",
    "Verif.Lru.Properties.C18_capacity_tight"
   ],
   "note": "Capacity is max(threshold - 1, 1), one less than the configured length (C18_capacity_tight)."
  },
  {
   "property": "C19",
   "status": "proved",
   "theorems": [
    "Verif.Date.Properties.C19_round_trip",
    "Verif.Date.Properties.C19_gregorian",
    "Verif.Date.Properties.C19_mktime",
    "Verif.Date.Properties.C19_clock",
    "Verif.Date.Properties.C19_spec_unique",
    "Verif.Date.Properties.C19_valid_date"
   ],
   "note": "All seconds within 2^55 of 1970 (where the 32-bit year field still fits), all offsets; the specification counts days one by one."
  },
  {
   "property": "C20",
   "status": "proved",
   "theorems": [
    "Verif.Date.Properties.C20_fields",
    "Verif.Date.Properties.C20_order",
    "Verif.Date.Properties.C20_top_bit",
    "Verif.Date.Properties.C20_binary",
    "Verif.Date.Properties.C20_binary_70_refuted",
    "Verif.Date.Properties.C20_date_part",
    "Verif.Date.Properties.C20_instant",
    "Verif.Date.Properties.C20_ts_round_trip",
    "Verif.Date.Properties.C20_dt_round_trip",
    "Verif.Date.Properties.C20_text",
    "Verif.Date.Properties.C20_text_exact",
    "Verif.Date.Properties.C20_date_text",
    "Verif.Date.Properties.C20_parse_range_partial",
    "Verif.Date.Properties.C20_parse_range_refuted",
    "Verif.Date.Properties.C20_parse_local_partial",
    "Verif.Date.Properties.C20_parse_local_refuted"
   ],
   "note": "Fields, order, DATETIME/TIMESTAMP and text round trips proved; arbitrary-text parsing is in range and local except for the refuted cases (minus signs; leading blanks)."
  },
  {
   "property": "C21",
   "status": "proved",
   "theorems": [
    "Verif.Date.Properties.C21_seconds",
    "Verif.Date.Properties.C21_round_trip",
    "Verif.Date.Properties.C21_fields",
    "Verif.Date.Properties.C21_order",
    "Verif.Date.Properties.C21_text",
    "Verif.Date.Properties.C21_binary",
    "Verif.Date.Properties.C21_as_datetime",
    "Verif.Date.Properties.C21_out_of_range_refuted"
   ],
   "note": "Proved for |hours| < 1024; out-of-range seconds wrap (C21_out_of_range_refuted)."
  },
  {
   "property": "C22",
   "status": "partial",
   "theorems": [
    "Verif.Date.Properties.C22_add_months_partial",
    "Verif.Date.Properties.C22_add_months_refuted",
    "Verif.Date.Properties.C22_add_years",
    "Verif.Date.Properties.C22_add_days",
    "Verif.Date.Properties.C22_add_seconds",
    "Verif.Date.Properties.C22_day_start"
   ],
   "note": "False in general: n months below January by whole years lands one year early (C22_add_months_refuted characterises every such case); proved in all other cases, and for years, days and seconds."
  },
  {
   "property": "C23",
   "status": "proved",
   "theorems": [
    "Verif.Like.Properties.C23_like_bytes",
    "Verif.Like.Properties.C23_like_utf8",
    "Verif.Like.Properties.C23_like_gbk",
    "Verif.Like.Properties.C23_true_any",
    "Verif.Like.Properties.C23_terminates",
    "Verif.Like.Properties.C23_null_refuted"
   ],
   "note": "Bytes: all strings; UTF-8 and GBK: all well-formed strings; ill-formed strings: soundness; termination for all. NULL LIKE p is not NULL in the code (C23_null_refuted)."
  },
  {
   "property": "C24",
   "status": "partial",
   "theorems": [
    "Verif.Like.Properties.C24_no_row_lost",
    "Verif.Like.Properties.C24_no_row_lost_gbk",
    "Verif.Like.Properties.C24_equality",
    "Verif.Like.Properties.C24_lone_escape_refuted",
    "Verif.Like.Properties.C24_gbk_refuted",
    "Verif.Like.Properties.C24_range_rewrite",
    "Verif.Like.Properties.C24_rewrite_escape_refuted",
    "Verif.Like.Properties.C24_rewrite_ff_refuted",
    "Verif.Like.Properties.C24_rewrite_empty_refuted"
   ],
   "note": "False for patterns ending in a lone backslash, GBK characters with second byte 0x5C, an escaped final % and prefixes of 0xFF bytes (each refuted); proved for all other patterns."
  },
  {
   "property": "C25",
   "status": "partial",
   "theorems": [
    "Verif.Expr.Properties.C25_three_valued",
    "Verif.Expr.Properties.C25_where",
    "Verif.Expr.Properties.C25_in_null_refuted",
    "Verif.Expr.Properties.C25_in_narrow_refuted",
    "Verif.Expr.Properties.C25_fraction_refuted"
   ],
   "note": "Proved for all conditions built from AND, OR, XOR, NOT, IS NULL, IS TRUE, comparisons and IN over columns and literals whose comparison type holds both values; false otherwise (refuted: hidden NULL beside IN, narrow columns in IN, fractional literals)."
  },
  {
   "property": "C26",
   "status": "proved",
   "theorems": [
    "Verif.Sort.Properties.C26_spec",
    "Verif.Sort.Properties.C26_topn",
    "Verif.Sort.Properties.C26_order_by",
    "Verif.Sort.Properties.C26_no_order",
    "Verif.Sort.Properties.C26_zero_refuted"
   ],
   "note": "n >= 1: a limit of 0 would read the root of an empty heap (C26_zero_refuted; the LIMIT node never passes 0 on). std::sort is any permutation without inversions."
  },
  {
   "property": "C27",
   "status": "proved",
   "theorems": [
    "Verif.Sort.Properties.C27_merge",
    "Verif.Sort.Properties.C27_sort",
    "Verif.Sort.Properties.C27_no_order",
    "Verif.Sort.Properties.C27_pushed_limit",
    "Verif.Sort.Properties.C27_region"
   ],
   "note": "Batches non-empty, as the callers add them. Pushed-down ORDER BY ... LIMIT composed over regions as well."
  },
  {
   "property": "C28",
   "status": "proved",
   "theorems": [
    "Verif.Proto.Properties.C28_length",
    "Verif.Proto.Properties.C28_string",
    "Verif.Proto.Properties.C28_int_text",
    "Verif.Proto.Properties.C28_uint_text",
    "Verif.Proto.Properties.C28_text_row",
    "Verif.Proto.Properties.C28_text_row_succeeds",
    "Verif.Proto.Properties.C28_show_row_partial",
    "Verif.Proto.Properties.C28_show_row_refuted"
   ],
   "note": "Strings up to the buffer limit of 2^31 bytes. Rows of SHOW commands send an empty string as NULL (C28_show_row_refuted). FLOAT, DOUBLE and HLL texts are not modelled."
  },
  {
   "property": "C29",
   "status": "partial",
   "theorems": [
    "Verif.Rev.Properties.C29_posting_list_partial",
    "Verif.Rev.Properties.C29_arrow_list_partial",
    "Verif.Rev.Properties.C29_first_entry_outside_the_range_refuted",
    "Verif.Rev.Properties.C29_seek_before_next_refuted",
    "Verif.Rev.Properties.C29_two_arrow_iterators_refuted"
   ],
   "note": "Every pair of lists, range and sequence of next and seek calls that starts with next; protobuf lists, and Arrow lists with one iterator. Refuted: the first entry is returned although it lies behind the end of a range without start; a seek before the first next finds nothing; two iterators over one Arrow list disturb each other. Weights are not modelled."
  },
  {
   "property": "C30",
   "status": "partial",
   "theorems": [
    "Verif.Rev.Properties.C30_boolean_query_partial",
    "Verif.Rev.Properties.C30_and_is_intersection",
    "Verif.Rev.Properties.C30_or_is_union",
    "Verif.Rev.Properties.C30_calls_partial",
    "Verif.Rev.Properties.C30_seek_before_next_refuted",
    "Verif.Rev.Properties.C30_first_entry_outside_the_range_refuted"
   ],
   "note": "Every tree of ANDs and ORs of any width and depth over protobuf lists: read to the end, and under any sequence of next and seek calls that starts with next. Missing: ranges with an end, no start and a first entry outside, and a seek before the first next (both refuted). WeightedBooleanExecutor is used by no query and not modelled."
  },
  {
   "property": "C31",
   "status": "proved",
   "theorems": [
    "Verif.Route.Properties.C31_record_to_its_owner",
    "Verif.Route.Properties.C31_range_reaches_every_region",
    "Verif.Route.Properties.C31_range_reaches_no_far_region",
    "Verif.Route.Properties.C31_ranges_are_distributed",
    "Verif.Route.Properties.C31_old_region_to_new_ones",
    "Verif.Route.Properties.C31_check_accepts_complete_tables",
    "Verif.Route.Properties.C31_check_refuses_gaps",
    "Verif.Route.Properties.C31_record_dropped_refuted"
   ],
   "note": "get_region_by_key in its three forms (record, index ranges, old regions) over one partition of one table, for complete tables; the consistency check is sound and complete. In a table whose first region is missing a record is dropped without an error (C31_record_dropped_refuted)."
  },
  {
   "property": "C32",
   "status": "partial",
   "theorems": [
    "Verif.Route.Properties.C32_first_load",
    "Verif.Route.Properties.C32_no_gap_no_overlap",
    "Verif.Route.Properties.C32_history_partial",
    "Verif.Route.Properties.C32_split_and_merge_are_learned",
    "Verif.Route.Properties.C32_merge_at_smallest_key_refuted",
    "Verif.Route.Properties.C32_hidden_split_and_merge_refuted"
   ],
   "note": "update_regions_double_buffer / update_regions_table with get_clear_regions, clear_region, update_region. First load, one arbitrary heartbeat, histories of heartbeats and learning of splits and merges are proved. Two consecutive heartbeats that hide a split followed by a merge lead to overlapping entries (C32_hidden_split_and_merge_refuted), and a merge at the smallest key is never learned (C32_merge_at_smallest_key_refuted); the history theorem therefore excludes hidden split-and-merge and is partial."
  },
  {
   "property": "C33",
   "status": "partial",
   "theorems": [
    "Verif.Txn.PropertiesCommit.C33_all_or_nothing_partial",
    "Verif.Txn.PropertiesCommit.C33_commits_once_exactly_the_standing_statements_partial",
    "Verif.Txn.PropertiesCommit.C33_told_committed_is_durable_partial",
    "Verif.Txn.PropertiesCommit.C33_told_rolled_back_is_final_partial",
    "Verif.Txn.PropertiesCommit.C33_prepared_secondary_ends_like_primary_partial",
    "Verif.Txn.PropertiesCommit.C33_untagged_primary_refuted",
    "Verif.Txn.PropertiesCommit.C33_lost_primary_refuted",
    "Verif.Txn.PropertiesCommit.C33_stale_answer_refuted",
    "Verif.Txn.PropertiesCommit.C33_forced_removal_refuted",
    "Verif.Txn.PropertiesCommit.C33_late_statement_refuted",
    "Verif.Txn.PropertiesCommit.C33_forgotten_transaction_refuted",
    "Verif.Txn.PropertiesCommit.C33_finished_mark_refuted"
   ],
   "note": "Any number of regions and statements; messages lost, late, repeated, reordered; executions failing; primary time-outs; server death; secondaries asking the primary. All-or-nothing, exactly-the-standing-statements, what the user is told, and termination of prepared secondaries are proved for every history without seven hazards, and each hazard is shown to break the claim in the code (the _refuted theorems): untagged rollback of a write-free primary, loss of it at a leader change, stale answer to a question asked before PREPARE, forced removal, late statement on a write-free prepared part, clearing of the finished marks, and the finished mark left by a primary that never answered. Not modelled: one-phase commit, binlog, several concurrent transactions, raft inside a region."
  },
  {
   "property": "C34",
   "status": "partial",
   "theorems": [
    "Verif.Apply.Properties.C34_replay_leaves_the_same_data_partial",
    "Verif.Apply.Properties.C34_running_store_partial",
    "Verif.Apply.Properties.C34_rollback_records_partial",
    "Verif.Apply.Properties.C34_straight_execution",
    "Verif.Apply.Properties.C34_restart_catches_up_partial",
    "Verif.Apply.Properties.C34_stop_during_restart_refuted",
    "Verif.Apply.Properties.C34_two_stops_around_commit_refuted",
    "Verif.Apply.Properties.C34_one_phase_stop_refuted",
    "Verif.Apply.Properties.C34_truncated_log_refuted",
    "Verif.Apply.Properties.C34_row_count_refuted",
    "Verif.Apply.Properties.C34_late_rollback_refuted"
   ],
   "note": "One region on one store, local restarts: every log the servers produce (two-phase and one-phase transactions, cached plans, given-up statements, writes outside transactions), any number of stops after any write, restarts from any earlier snapshot. Same data, open transactions and rollback records proved outside four hazards, each shown to break the claim (the _refuted theorems): a stop inside the restart, a second stop before PREPARE is applied again, a stop between one-phase commit and its record when an earlier entry began the transaction, a log truncated past an open transaction. The row count is lost at any restart with an open transaction (C34_row_count_refuted). Not modelled: snapshots from other peers, splits, PARTIAL_ROLLBACK as an entry, binlog, column storage."
  },
  {
   "property": "C35",
   "status": "partial",
   "theorems": [
    "Verif.Txn.PropertiesSave.C35_region_holds_standing_statements",
    "Verif.Txn.PropertiesSave.C35_failed_statement_leaves_no_trace",
    "Verif.Txn.PropertiesSave.C35_given_up_statement_leaves_no_trace",
    "Verif.Txn.PropertiesSave.C35_prepared_is_executed_minus_given_up",
    "Verif.Txn.PropertiesSave.C35_follower_holds_the_same",
    "Verif.Txn.PropertiesSave.C35_rebuilt_peer_holds_the_same",
    "Verif.Txn.PropertiesSave.C35_key_value_row_count_refuted",
    "Verif.Txn.PropertiesSave.C35_late_select_refuted",
    "Verif.Txn.PropertiesSave.C35_below_the_top_is_ignored_refuted"
   ],
   "note": "One region's part of a transaction: leader, follower (statement mode) and peer rebuilt from cached plans, for every history that follows the SQL node's discipline (a statement is given up before the next number is sent). Refuted: a SELECT that arrives late makes a repeated INSERT run twice; in key-value mode the follower's row count differs. rocksdb's SetSavePoint/RollbackToSavePoint are modelled as a stack of batches; locks are not."
  },
  {
   "property": "C36",
   "status": "partial",
   "theorems": [
    "Verif.Split.Properties.C36_range_test_exact",
    "Verif.Split.Properties.C36_filter_drops_exactly_what_left",
    "Verif.Split.Properties.C36_filter_drops_exactly_what_left_rows",
    "Verif.Split.Properties.C36_compaction_invisible",
    "Verif.Split.Properties.C36_split_copies_exactly",
    "Verif.Split.Properties.C36_split_copies_exactly_rows",
    "Verif.Split.Properties.C36_replay_takes_exactly",
    "Verif.Split.Properties.C36_replay_takes_exactly_rows",
    "Verif.Split.Properties.C36_split_loses_and_duplicates_nothing",
    "Verif.Split.Properties.C36_ttl_enabled_later_refuted",
    "Verif.Split.Properties.C36_timestamp_primary_key_refuted",
    "Verif.Split.Properties.C36_nullable_primary_key_refuted"
   ],
   "note": "For every row, KEY/UNIQUE index and range the test equals the comparison of the primary key; copy, replay and filter agree, nothing lost or doubled. Hypotheses: NOT NULL primary key, TTL settings known to the filter, old values that do not look like times; each is needed (refutations). Not modelled: full-text index entries, deepest-level condition."
  },
  {
   "property": "C37",
   "status": "partial",
   "theorems": [
    "Verif.Olap.Properties.C37_any_grouping",
    "Verif.Olap.Properties.C37_read_is_the_sum",
    "Verif.Olap.Properties.C37_read_is_the_sum_versioned",
    "Verif.Olap.Properties.C37_exact_sum",
    "Verif.Olap.Properties.C37_redelivery_counts_once",
    "Verif.Olap.Properties.C37_partial_merge_other_columns_refuted",
    "Verif.Olap.Properties.C37_null_version_refuted"
   ],
   "note": "Every regrouping of any history reads the same row, which is the sum (of the counted deltas with versions). Exceptions, refuted: with the partial-merge flag the other columns of the first rows; a delta with a NULL version. Signed overflow is modelled as wrapping (undefined in C++); table cache not modelled."
  },
  {
   "property": "C38",
   "status": "partial",
   "theorems": [
    "Verif.Expr.Properties.C38_order",
    "Verif.Expr.Properties.C38_mixed_partial",
    "Verif.Expr.Properties.C38_mixed_refuted",
    "Verif.Expr.Properties.C38_null_left",
    "Verif.Expr.Properties.C38_null_right_refuted",
    "Verif.Expr.Properties.C38_rows",
    "Verif.Expr.Properties.C38_rows_preorder"
   ],
   "note": "Same-type comparison and row comparison are total orders; mixed types agree when the conversion is exact. Refuted: negative INT against UNSIGNED, NULL on the right of the raw comparison."
  },
  {
   "property": "C39",
   "status": "partial",
   "theorems": [
    "Verif.Expr.Properties.C39_signed_partial",
    "Verif.Expr.Properties.C39_unsigned_partial",
    "Verif.Expr.Properties.C39_null",
    "Verif.Expr.Properties.C39_mod_signed_partial",
    "Verif.Expr.Properties.C39_mod_unsigned_partial",
    "Verif.Expr.Properties.C39_exact_refuted"
   ],
   "note": "Exact or modulo 2^64; NULL-strict. The full claim is refuted: signed overflow is undefined, unsigned results wrap silently."
  },
  {
   "property": "C40",
   "status": "partial",
   "theorems": [
    "Verif.Part.Properties.C40_partitions_never_overlap",
    "Verif.Part.Properties.C40_ids_are_not_reused",
    "Verif.Part.Properties.C40_ids_survive_drop_and_modify",
    "Verif.Part.Properties.C40_add_refused_iff_overlap",
    "Verif.Part.Properties.C40_drop_is_exact",
    "Verif.Part.Properties.C40_modify_cold_is_exact",
    "Verif.Part.Properties.C40_less_than",
    "Verif.Part.Properties.C40_row_to_its_partition",
    "Verif.Part.Properties.C40_null_and_switched_rows_refused",
    "Verif.Part.Properties.C40_pruning_keeps_matching_rows",
    "Verif.Part.Properties.C40_pruning_by_expression_partial",
    "Verif.Part.Properties.C40_written_row_is_read",
    "Verif.Part.Properties.C40_hash_partition",
    "Verif.Part.Properties.C40_negative_hash_refuted",
    "Verif.Part.Properties.C40_additional_not_read_refuted",
    "Verif.Part.Properties.C40_empty_partition_refuted",
    "Verif.Part.Properties.C40_switched_reader_refuted"
   ],
   "note": "RANGE catalogue at the meta server (create, add, drop, modify) and row assignment and pruning at the frontend; HASH. Proved for users outside a table switch and, for HASH, for non-negative numbers and other types. Refuted: negative HASH values have a negative partition (row refused); range conditions on a table partitioned by an expression miss ADDITIONAL partitions; readers of a switched table can see two partitions for one value; CREATE TABLE accepts an empty partition."
  },
  {
   "property": "C41",
   "status": "proved",
   "theorems": [
    "Verif.Sort.Properties.C41_limit"
   ],
   "note": "-1 stands for no limit, as in the code."
  },
  {
   "property": "C45",
   "status": "partial",
   "theorems": [
    "Verif.Proto.Properties.C45_binary_row_partial",
    "Verif.Proto.Properties.C45_fraction_refuted",
    "Verif.Proto.Properties.C45_whole_days_refuted",
    "Verif.Proto.Properties.C45_zero_timestamp_refuted",
    "Verif.Proto.Properties.C45_packet_partial",
    "Verif.Proto.Properties.C45_packet_refuted"
   ],
   "note": "Every row without DATETIME microseconds and TIMEs of whole days; those are sent wrongly (refutations), as is the TIMESTAMP 0, and answers of 2^24 bytes and more outside result rows (C45_packet_refuted)."
  },
  {
   "property": "C46",
   "status": "proved",
   "theorems": [
    "Verif.Proto.Properties.C46_request"
   ],
   "note": "Requests up to 2^31 - 8 bytes. SSL not modelled."
  },
  {
   "property": "C47",
   "status": "partial",
   "theorems": [
    "Verif.Proto.Properties.C47_parameters_partial",
    "Verif.Proto.Properties.C47_zero_time_refuted",
    "Verif.Proto.Properties.C47_huge_length_refuted",
    "Verif.Proto.Properties.C47_short_types_refuted",
    "Verif.Proto.Properties.C47_no_overread_partial"
   ],
   "note": "All parameter lists without a zero TIME, years from 100. Refuted: zero TIME shifts the following parameters; a string length near 2^64 and types behind the end of the packet are read out of bounds."
  },
  {
   "property": "C48",
   "status": "proved",
   "theorems": [
    "Verif.Proto.Properties.C48_login_sound",
    "Verif.Proto.Properties.C48_login_complete"
   ],
   "note": "The expected response is a table lookup: the server always sends the same challenge, so a recorded response can be replayed (see DESIGN.md findings)."
  },
  {
   "property": "C49",
   "status": "partial",
   "theorems": [
    "Verif.Olap.Properties.C49_rollup_is_the_sum_of_present_rows",
    "Verif.Olap.Properties.C49_delete_other_types_refuted"
   ],
   "note": "INT32/INT64 columns. Columns of other integer types make deletes fail (C49_delete_other_types_refuted). Building a rollup index online is not modelled."
  },
  {
   "property": "C50",
   "status": "partial",
   "theorems": [
    "Verif.Rev.PropertiesLevel.C50_search_follows_the_writes_partial",
    "Verif.Rev.PropertiesLevel.C50_complete_pass_shows_every_write_partial",
    "Verif.Rev.PropertiesLevel.C50_background_work_is_invisible",
    "Verif.Rev.PropertiesLevel.C50_full_read_with_store_partial",
    "Verif.Rev.PropertiesLevel.C50_full_read_refuted",
    "Verif.Rev.PropertiesLevel.C50_clock_back_refuted",
    "Verif.Rev.PropertiesLevel.C50_nul_in_term_refuted",
    "Verif.Rev.PropertiesLevel.C50_high_term_refuted",
    "Verif.Rev.PropertiesLevel.C50_outside_the_range_refuted",
    "Verif.Rev.PropertiesLevel.C50_range_grows_refuted",
    "Verif.Rev.PropertiesLevel.C50_same_microsecond_refuted"
   ],
   "note": "Every history of writes, passes, splits, failures, restarts and cache traffic from an empty index, every query tree. Proved for terms without NUL and below eight 0xFF, primary keys none of which is the start of another, a clock that moves forward between transactions writing one entry, and a range that only shrinks; with the cache off, or between passes if no stale list was put into it. Each of these, and documents outside the range before the thread has taken it over, is refuted by a concrete history; so is the flag that reads level 1 (null pointer). Inherits the range condition of C29."
  },
  {
   "property": "C51",
   "status": "partial",
   "theorems": [
    "Verif.Rev.PropertiesLevel.C51_read_during_merging_partial",
    "Verif.Rev.PropertiesLevel.C51_cached_list_loses_documents_refuted",
    "Verif.Rev.PropertiesLevel.C51_stale_cache_refuted",
    "Verif.Rev.PropertiesLevel.C51_failed_pass_refuted"
   ],
   "note": "Every history and every pair of moments per term, lists read from disk. With the level-3 cache refuted three ways: during a pass, a reader caching a list across a pass, and after a failed pass. Same conditions on writes as C50."
  },
  {
   "property": "C42",
   "status": "partial",
   "theorems": [
    "Verif.Cut.Properties.C42_same_rows",
    "Verif.Cut.Properties.C42_sql",
    "Verif.Cut.Properties.C42_defined_partial",
    "Verif.Cut.Properties.C42_null_bound_refuted",
    "Verif.Cut.Properties.C42_null_range_refuted",
    "Verif.Cut.Properties.C42_null_text_refuted",
    "Verif.Cut.Properties.C42_twice_refuted",
    "Verif.Cut.Properties.C42_freed_refuted",
    "Verif.Cut.Properties.C42_sort_refuted"
   ],
   "note": "Every list of conjuncts of any length over columns of any modelled type, constants of any value: equality, bounds, IN, row = and row IN, OR turned into IN, anything else as an opaque condition. Proved where type inference leaves well-typed constants, bounds and row constants are not NULL, text IN lists have no NULL, a row names a column once, row IN has no DOUBLE column and no NUL byte, and the rewriting has a defined result; each of the first four is refuted by a concrete statement, and undefined behaviour by two (freed node, std::sort). C42_defined_partial shows that a result exists for at most 16 conditions on single columns. Not modelled: placeholders, LIKE, several tables, numbers given for date columns."
  },
  {
   "property": "C43",
   "status": "partial",
   "theorems": [
    "Verif.Cut.Properties.C43_or_in",
    "Verif.Cut.Properties.C43_null_refuted",
    "Verif.Cut.Properties.C43_twice_refuted",
    "Verif.Cut.Properties.C43_zero_byte_refuted"
   ],
   "note": "Every OR, any number of children. Conditions: non-NULL constants; for an OR of ANDs a column once per AND, no DOUBLE column, no NUL byte in strings; the first three of these are refuted without (DOUBLE keys go through text the model leaves out)."
  },
  {
   "property": "C44",
   "status": "partial",
   "theorems": [
    "Verif.Cut.Properties.C44_rows_partial",
    "Verif.Cut.Properties.C44_row_equal",
    "Verif.Cut.Properties.C44_row_in",
    "Verif.Cut.Properties.C44_null_constant_refuted",
    "Verif.Cut.Properties.C44_null_column_refuted",
    "Verif.Cut.Properties.C44_not_in_refuted",
    "Verif.Cut.Properties.C44_zero_byte_refuted"
   ],
   "note": "Every width. Comparisons with non-NULL constants: all six operators for rows without NULL, equality with NULLs as a conjunct; row IN as a conjunct for strings without NUL and no DOUBLE column. Refuted: NULL constants, NULL columns with < and <>, NOT IN with NULL, NUL bytes."
  },
  {
   "property": "C52",
   "status": "partial",
   "theorems": [
    "Verif.Dml.Properties.C52_insert",
    "Verif.Dml.Properties.C52_update",
    "Verif.Dml.Properties.C52_delete",
    "Verif.Dml.PropertiesRef.C52_set_null_refuted",
    "Verif.Dml.PropertiesRef.C52_column_store_refuted",
    "Verif.Dml.PropertiesRef.C52_key_moved_away_refuted",
    "Verif.Dml.PropertiesRef.C52_keep_ttl_refuted"
   ],
   "note": "Every schema, content and statement on one region, local KEY and UNIQUE indexes. Conditions, each refuted without: no NULL written to a column with a DEFAULT; ON DUPLICATE KEY UPDATE in a column store reads no columns beyond those the node fetches, does not move a key out of the region and does not keep expiry times. NULL counts as a value in UNIQUE (C54). Not modelled: global, full-text, vector and rollup indexes, MERGE, binlog, lock conflicts."
  },
  {
   "property": "C53",
   "status": "partial",
   "theorems": [
    "Verif.Dml.Properties.C53_indexes_agree",
    "Verif.Dml.Properties.C53_empty",
    "Verif.Dml.Properties.C53_index_lookup",
    "Verif.Dml.PropertiesRef.C53_set_null_refuted"
   ],
   "note": "Every history of statements, time and region cuts, starting from an empty table or any consistent one. Refuted for SET col = NULL on a column with a DEFAULT (a dangling index record stays)."
  },
  {
   "property": "C54",
   "status": "partial",
   "theorems": [
    "Verif.Dml.Properties.C54_unique",
    "Verif.Dml.PropertiesRef.C54_null_refuted"
   ],
   "note": "No two rows with equal values, NULL included: the code treats NULL as equal to NULL, so rows SQL admits are refused (C54_null_refuted)."
  },
  {
   "property": "C55",
   "status": "partial",
   "theorems": [
    "Verif.Dml.Properties.C55_add_key",
    "Verif.Dml.Properties.C55_add_unique_quiet",
    "Verif.Dml.PropertiesRef.C55_add_unique_refuted"
   ],
   "note": "KEY index: every interleaving of statements, time and cuts with the filling. UNIQUE index: proved without concurrent statements, both directions; refuted with them (C55_add_unique_refuted: the index misses a row and admits a duplicate)."
  },
  {
   "property": "C56",
   "status": "partial",
   "theorems": [
    "Verif.Dml.Properties.C56_update_in_transaction",
    "Verif.Dml.Properties.C56_delete",
    "Verif.Dml.Properties.C56_update_autocommit_partial",
    "Verif.Dml.PropertiesRef.C56_autocommit_refuted"
   ],
   "note": "UPDATE in a transaction and every DELETE: any division into batches. Outside a transaction an UPDATE that fails in a later batch leaves the earlier batches changed (C56_autocommit_refuted); the answer and the effect of a successful one are proved (C56_update_autocommit_partial)."
  },
  {
   "property": "C57",
   "status": "proved",
   "theorems": [
    "Verif.Dml.Properties.C57_insert",
    "Verif.Dml.Properties.C57_delete"
   ],
   "note": "INSERT in all forms and DELETE. UPDATE reports nothing to the counter."
  },
  {
   "property": "C58",
   "status": "partial",
   "theorems": [
    "Verif.Path.Properties.C58_index_access_exact_partial",
    "Verif.Path.Properties.C58_no_ranges_nothing_selected_partial",
    "Verif.Path.Properties.C58_any_index_same_rows_partial",
    "Verif.Path.PropertiesRef.C58_like_after_in_refuted",
    "Verif.Path.PropertiesRef.C58_like_dropped_refuted",
    "Verif.Path.PropertiesRef.C58_row_and_like_refuted",
    "Verif.Path.PropertiesRef.C58_match_column_refuted",
    "Verif.Path.PropertiesRef.C58_match_dropped_refuted",
    "Verif.Path.PropertiesRef.C58_constant_out_of_range_refuted",
    "Verif.Path.PropertiesRef.C58_row_with_null_refuted",
    "Verif.Path.PropertiesRef.C58_like_on_number_refuted",
    "Verif.Path.PropertiesRef.C58_column_twice_refuted",
    "Verif.Path.PropertiesRef.C58_row_bounds_refuted"
   ],
   "note": "Proved for every conjunction that meets query_ok (Path/Spec.v): constants fit the column, LIKE only on text columns, no full-text condition on an index column, a row equality shares no column with another fixing condition, no wildcard LIKE after an IN column, row constants without NULL. Each of these exclusions is a refuted case (C58_*_refuted): the query loses rows or returns wrong ones."
  },
  {
   "property": "C59",
   "status": "partial",
   "theorems": [
    "Verif.Path.Properties.C59_order_by_index_partial"
   ],
   "note": "Same query_ok; one range, one region (merging the regions is C27)."
  },
  {
   "property": "C60",
   "status": "partial",
   "theorems": [
    "Verif.Path.Properties.C60_range_keys_exact_partial",
    "Verif.Path.PropertiesRef.C60_long_ff_keys_refuted"
   ],
   "note": "Keys without 24 consecutive bytes 255; with them refuted (C60_long_ff_keys_refuted)."
  },
  {
   "property": "C61",
   "status": "partial",
   "theorems": [
    "Verif.Agg.Properties.C61_aggregates_over_regions",
    "Verif.Agg.Properties.C61_plain_aggregates_over_regions",
    "Verif.Agg.PropertiesRef.C61_rb_and_null_part_refuted",
    "Verif.Agg.PropertiesRef.C61_multi_distinct_null_part_refuted",
    "Verif.Agg.PropertiesRef.C61_multi_sum_of_nothing_refuted"
   ],
   "note": "All functions in Agg/Model.v, for all divisions and arrival orders. Missing: RB_AND_AGG and MULTI_*_DISTINCT with a part of a group that has only NULLs (refuted: C61_rb_and_null_part_refuted, C61_multi_distinct_null_part_refuted), MULTI_SUM_DISTINCT of no rows (refuted), AVG beyond 2^53, HLL and t-digest sketches, SUM of floating-point numbers."
  },
  {
   "property": "C62",
   "status": "partial",
   "theorems": [
    "Verif.Agg.Properties.C62_group_key_identity",
    "Verif.Agg.PropertiesRef.C62_ninth_null_refuted",
    "Verif.Agg.PropertiesRef.C62_nul_bytes_refuted",
    "Verif.Agg.PropertiesRef.C62_other_types_refuted"
   ],
   "note": "Proved for values of the encodable types, strings without NUL, NULL only in the first eight expressions; each exclusion is refuted (C62_*_refuted)."
  },
  {
   "property": "C63",
   "status": "partial",
   "theorems": [
    "Verif.Agg.Properties.C63_distinct_and_ordered_aggregates",
    "Verif.Agg.Properties.C63_count_distinct",
    "Verif.Agg.PropertiesRef.C63_count_beside_avg_distinct_refuted",
    "Verif.Agg.PropertiesRef.C63_concat_empty_text_refuted"
   ],
   "note": "One row per combination of the arguments of all DISTINCT calls (and ORDER BY keys) of the query; for one list of arguments this is the SQL meaning (C63_count_distinct). With AVG(DISTINCT) over another argument it is not: C63_count_beside_avg_distinct_refuted. Texts of an ordered GROUP_CONCAT not empty (C63_concat_empty_text_refuted)."
  },
  {
   "property": "C64",
   "status": "proved",
   "theorems": [
    "Verif.Agg.Properties.C64_distinct_set_round_trip"
   ],
   "note": "Non-empty sets; the empty set is the case of C61_multi_distinct_null_part_refuted."
  },
  {
   "property": "C65",
   "status": "partial",
   "theorems": [
    "Verif.Join.Properties.C65_inner_join",
    "Verif.Join.Properties.C65_outer_join_on_equalities",
    "Verif.Join.Properties.C65_outer_join_without_equalities",
    "Verif.Join.PropertiesRef.C65_left_join_with_condition_refuted",
    "Verif.Join.PropertiesRef.C65_left_join_in_batches_refuted",
    "Verif.Join.PropertiesRef.C65_null_key_refuted",
    "Verif.Join.PropertiesRef.C65_nul_bytes_refuted"
   ],
   "note": "INNER JOIN: every ON clause, hash join and nested loops, all batches and capacities. LEFT/RIGHT JOIN: ON clause of equalities only, or at most one candidate per row (C65_left_join_with_condition_refuted otherwise); without an equality the batch must take all rows (C65_left_join_in_batches_refuted otherwise). Text keys without NUL bytes and NULL keys told apart (C65_nul_bytes_refuted, C65_null_key_refuted). FULL JOIN is executed by Arrow and not modelled."
  },
  {
   "property": "C66",
   "status": "partial",
   "theorems": [
    "Verif.Join.Properties.C66_limit_over_inner_join",
    "Verif.Join.Properties.C66_limit_over_outer_join",
    "Verif.Join.PropertiesRef.C66_limit_over_nested_loop_refuted",
    "Verif.Join.PropertiesRef.C66_limit_over_full_join_refuted"
   ],
   "note": "Joins with an equality in the ON clause. Refuted for nested loops (C66_limit_over_nested_loop_refuted: too few rows) and for FULL JOIN (C66_limit_over_full_join_refuted: rows that are not in the join)."
  },
  {
   "property": "C67",
   "status": "partial",
   "theorems": [
    "Verif.Join.PropertiesPlan.C67_pushdown_keeps_rows",
    "Verif.Join.PropertiesPlan.C67_conversion_keeps_rows_under_conditions",
    "Verif.Join.PropertiesPlan.C67_pushdown_with_rest",
    "Verif.Join.PropertiesPlan.C67_on_condition_of_outer_join_refuted",
    "Verif.Join.PropertiesPlan.C67_not_and_refuted",
    "Verif.Join.PropertiesPlan.C67_is_not_true_refuted",
    "Verif.Join.PropertiesPlan.C67_or_constant_refuted",
    "Verif.Join.PropertiesPlan.C67_correlated_condition_dropped_refuted"
   ],
   "note": "All join trees and table contents, for conditions that are strict or AND/OR of strict operands that each read a column, or contain a function for NULL; ON conditions of an outer join not about its preserved side only; no condition about tables outside the plan. Each exclusion is refuted: C67_on_condition_of_outer_join_refuted, C67_not_and_refuted, C67_is_not_true_refuted, C67_or_constant_refuted, C67_correlated_condition_dropped_refuted. Derived tables, UNION, aggregation and HAVING are not in the plans."
  },
  {
   "property": "C68",
   "status": "partial",
   "theorems": [
    "Verif.Window.Properties.C68_window_values",
    "Verif.Window.Properties.C68_any_state",
    "Verif.Window.Properties.C68_long_frame_refuted",
    "Verif.Window.Properties.C68_far_frame_refuted",
    "Verif.Window.Properties.C68_nth_value_refuted",
    "Verif.Window.Properties.C68_unsigned_sum_refuted"
   ],
   "note": "All functions and frames in Window/Model.v, integer SUM within BIGINT, AVG sums within 2^53. Missing: frame distances and NTH_VALUE positions from 2^31 (C68_long_frame_refuted, C68_far_frame_refuted, C68_nth_value_refuted), SUM of BIGINT UNSIGNED from 2^63 (C68_unsigned_sum_refuted), SUM of floating-point numbers, vectorized execution."
  },
  {
   "property": "C69",
   "status": "proved",
   "theorems": [
    "Verif.Window.Properties.C69_window_node",
    "Verif.Window.Properties.C69_batches"
   ],
   "note": "One window per query, partition values as in C62 (groupable), the functions of the window as in C70 (coherent). An empty batch before the last one is excluded: the sort below never delivers one."
  },
  {
   "property": "C70",
   "status": "partial",
   "theorems": [
    "Verif.Window.Properties.C70_shared_window",
    "Verif.Window.Properties.C70_merged_windows_refuted"
   ],
   "note": "Holds if the first function of the list has a frame, if none has, or without ORDER BY; refuted for ROW_NUMBER() OVER (ORDER BY y), SUM(x) OVER (ORDER BY y): C70_merged_windows_refuted."
  },
  {
   "property": "C71",
   "status": "proved",
   "theorems": [
    "Verif.Global.Properties.C71_indexes_agree",
    "Verif.Global.Properties.C71_unique",
    "Verif.Global.Properties.C71_index_lookup"
   ],
   "note": "All indexes of the table global and public, no TTL, row store; a statement that fails is undone by its transaction. NULLs in a UNIQUE key count as equal values, as in C54."
  },
  {
   "property": "C72",
   "status": "partial",
   "theorems": [
    "Verif.Global.Properties.C72_insert",
    "Verif.Global.Properties.C72_replace",
    "Verif.Global.Properties.C72_update",
    "Verif.Global.Properties.C72_delete",
    "Verif.Global.Properties.C72_replace_count_refuted"
   ],
   "note": "Rows: for all statements. Affected rows of REPLACE: if no two rows of the statement clash; refuted otherwise (C72_replace_count_refuted)."
  },
  {
   "property": "C73",
   "status": "partial",
   "theorems": [
    "Verif.Global.Properties.C73_ignore_rows",
    "Verif.Global.Properties.C73_ignore",
    "Verif.Global.Properties.C73_on_duplicate_partial",
    "Verif.Global.Properties.C73_ignore_refuted",
    "Verif.Global.Properties.C73_on_duplicate_refuted_crash",
    "Verif.Global.Properties.C73_on_duplicate_refuted_lost",
    "Verif.Global.Properties.C73_on_duplicate_refuted_order",
    "Verif.Global.Properties.C73_on_duplicate_refuted_count"
   ],
   "note": "INSERT IGNORE: what it does is characterised for all statements (C73_ignore_rows) and is SQL's if no two rows of the statement clash; refuted otherwise (C73_ignore_refuted). ON DUPLICATE KEY UPDATE: SQL's rows for a statement of one row; with several rows refuted by a null pointer, a lost row and the order of updates (C73_on_duplicate_refuted_*); its count is refuted if the row clashes with two stored rows."
  },
  {
   "property": "C74",
   "status": "partial",
   "theorems": [
    "Verif.Subquery.Properties.C74_in",
    "Verif.Subquery.Properties.C74_not_in",
    "Verif.Subquery.Properties.C74_not_in_empty_refuted",
    "Verif.Subquery.Properties.C74_exists",
    "Verif.Subquery.Properties.C74_scalar",
    "Verif.Subquery.Properties.C74_eq_any_ne_all",
    "Verif.Subquery.Properties.C74_eq_all_ne_any_partial",
    "Verif.Subquery.Properties.C74_ne_any_refuted",
    "Verif.Subquery.Properties.C74_eq_all_null_refuted",
    "Verif.Subquery.Properties.C74_ordered_any_partial",
    "Verif.Subquery.Properties.C74_ordered_all_partial",
    "Verif.Subquery.Properties.C74_gt_any_null_refuted",
    "Verif.Subquery.Properties.C74_lt_all_empty_refuted",
    "Verif.Subquery.Properties.C74_gt_all_null_refuted",
    "Verif.Subquery.Properties.C74_limit_refuted"
   ],
   "note": "IN, EXISTS, scalar, = ANY and <> ALL: for all rows, NOT IN if the subquery has a row. =ALL without NULLs, <>ANY over one value, >,>=,<,<= ANY/ALL without LIMIT and, as the theorem says, without NULLs and empty subqueries. The rest is refuted: C74_not_in_empty_refuted, C74_ne_any_refuted, C74_eq_all_null_refuted, C74_gt_any_null_refuted, C74_lt_all_empty_refuted, C74_gt_all_null_refuted, C74_limit_refuted. Rows of several columns and conversions between types are not modelled."
  },
  {
   "property": "C75",
   "status": "partial",
   "theorems": [
    "Verif.Subquery.Properties.C75_extreme_partial",
    "Verif.Subquery.Properties.C75_min_refuted",
    "Verif.Subquery.Properties.C75_limit_refuted"
   ],
   "note": "MAX always; MIN of a column if no row has NULL in it, of other expressions always. MIN of a column with NULLs is refuted for every table (C75_min_refuted), LIMIT 0 too (C75_limit_refuted)."
  },
  {
   "property": "C76",
   "status": "partial",
   "theorems": [
    "Verif.Subquery.PropertiesApply.C76_in_and_any",
    "Verif.Subquery.PropertiesApply.C76_other_predicates_partial",
    "Verif.Subquery.PropertiesApply.C76_scalar_error_partial",
    "Verif.Subquery.PropertiesApply.C76_select_list_partial",
    "Verif.Subquery.PropertiesApply.C76_error_rows",
    "Verif.Subquery.PropertiesApply.C76_not_in_null_refuted",
    "Verif.Subquery.PropertiesApply.C76_all_null_refuted",
    "Verif.Subquery.PropertiesApply.C76_exists_select_list_refuted",
    "Verif.Subquery.PropertiesApply.C76_scalar_equal_no_error_refuted",
    "Verif.Subquery.PropertiesApply.C76_scalar_spurious_error_refuted"
   ],
   "note": "IN and ANY: for all rows, algorithms and batches. NOT IN and ALL if neither side has NULLs, EXISTS if the first expression of its SELECT list is TRUE, comparisons if the subquery has at most one row, SELECT list with at most one row, or conditions that all set columns equal. The error of a comparison: for operators other than = and conditions that set columns equal; in general C76_error_rows says when it comes. Refuted: C76_not_in_null_refuted, C76_all_null_refuted, C76_exists_select_list_refuted, C76_scalar_equal_no_error_refuted, C76_scalar_spurious_error_refuted. Subqueries with aggregation, LIMIT or several columns, and predicates below OR, are not in the theorems."
  },
  {
   "property": "C77",
   "status": "partial",
   "theorems": [
    "Verif.Subquery.PropertiesAgg.C77_aggregates_partial",
    "Verif.Subquery.PropertiesAgg.C77_count_of_rows",
    "Verif.Subquery.PropertiesAgg.C77_select_list",
    "Verif.Subquery.PropertiesAgg.C77_count_refuted",
    "Verif.Subquery.PropertiesAgg.C77_condition_above_aggregation_refuted"
   ],
   "note": "Comparisons: functions that are NULL over no rows (SUM, MIN, MAX, AVG), conditions that set a column of the subquery (not FLOAT or DOUBLE) equal to an expression over the outer row; COUNT of all rows and the SELECT list with any function and conditions. Refuted for COUNT of a column over no rows (C77_count_refuted) and for other conditions (C77_condition_above_aggregation_refuted). The subquery has no GROUP BY or HAVING; the aggregation itself is C62-C64."
  },
  {
   "property": "C78",
   "status": "partial",
   "theorems": [
    "Verif.Priv.PropertiesPriv.C78_access_follows_the_requests_partial",
    "Verif.Priv.PropertiesPriv.C78_rights_follow_the_requests_partial",
    "Verif.Priv.PropertiesPriv.C78_database_grant_refuted",
    "Verif.Priv.PropertiesPriv.C78_revoke_database_refuted",
    "Verif.Priv.PropertiesPriv.C78_same_name_refuted",
    "Verif.Priv.PropertiesPriv.C78_union_refuted",
    "Verif.Priv.PropertiesPriv.C78_global_grant_refuted",
    "Verif.Priv.PropertiesPriv.C78_revoke_write_and_acl_refuted"
   ],
   "note": "READ and WRITE access: for all histories in which no other table goes by the name of the table and no rights are given, all statements but UNION. Rights of GRANT: for all histories without READ or WRITE access, on tables named in a GRANT to the user. Refuted: rights on a database or everywhere (C78_database_grant_refuted, C78_revoke_database_refuted, C78_global_grant_refuted), tables of the same name (C78_same_name_refuted), UNION (C78_union_refuted), requests that mix both (C78_revoke_write_and_acl_refuted)."
  },
  {
   "property": "C79",
   "status": "partial",
   "theorems": [
    "Verif.Priv.PropertiesPriv.C79_connections_follow_partial",
    "Verif.Priv.PropertiesPriv.C79_queries_follow_the_requests_partial",
    "Verif.Priv.PropertiesPriv.C79_logins_follow_partial",
    "Verif.Priv.PropertiesPriv.C79_never_more_than_was_granted_partial",
    "Verif.Priv.PropertiesPriv.C79_dropped_user_refuted",
    "Verif.Priv.PropertiesPriv.C79_recreated_user_refuted"
   ],
   "note": "For users that are not dropped and whose addresses are not checked: for all interleavings. Refuted for users that are dropped (C79_dropped_user_refuted), and created again (C79_recreated_user_refuted)."
  },
  {
   "property": "C80",
   "status": "partial",
   "theorems": [
    "Verif.Priv.PropertiesPriv.C80_grant_only_what_is_held_partial",
    "Verif.Priv.PropertiesPriv.C80_table_changes_need_the_right_partial",
    "Verif.Priv.PropertiesPriv.C80_user_without_rights_refuted",
    "Verif.Priv.PropertiesPriv.C80_grant_option_refuted"
   ],
   "note": "For users to whom the table was named in a GRANT and who have no READ or WRITE access. Refuted for users without rights (C80_user_without_rights_refuted); holders of the right to grant are refused (C80_grant_option_refuted)."
  },
  {
   "property": "C81",
   "status": "partial",
   "theorems": [
    "Verif.Priv.PropertiesPriv.C81_index_is_exact_partial",
    "Verif.Priv.PropertiesPriv.C81_drop_table_takes_privileges_away_partial",
    "Verif.Priv.PropertiesPriv.C81_revoked_right_refuted"
   ],
   "note": "For histories that revoke READ and WRITE access only, with one table of that name. Refuted after a REVOKE of rights (C81_revoked_right_refuted)."
  },
  {
   "property": "C82",
   "status": "partial",
   "theorems": [
    "Verif.Derived.PropertiesDerived.C82_derived_tables_mean_their_rows",
    "Verif.Derived.PropertiesDerived.C82_well_formed_is_answered",
    "Verif.Derived.PropertiesDerived.C82_bare_column_refuted",
    "Verif.Derived.PropertiesDerived.C82_constant_beside_total_refuted",
    "Verif.Derived.PropertiesDerived.C82_distinct_argument_refuted"
   ],
   "note": "For all statements in which no WHERE condition is just a column, no constant stands beside aggregates without GROUP BY in a subquery, only GROUP BY columns beside DISTINCT aggregates, SELECT DISTINCT without windows and UNION ALL not after UNION. Each of these is refuted (C82_bare_column_refuted, C82_constant_beside_total_refuted, C82_distinct_argument_refuted, C83_all_after_distinct_refuted, C84_distinct_with_window_refuted). Joins in FROM are the matter of C65 to C67."
  },
  {
   "property": "C83",
   "status": "partial",
   "theorems": [
    "Verif.Derived.PropertiesDerived.C83_union_of_answers",
    "Verif.Derived.PropertiesDerived.C83_union_rows",
    "Verif.Derived.PropertiesDerived.C83_all_after_distinct_refuted"
   ],
   "note": "For all UNIONs of any SELECTs in which no UNION ALL follows a UNION. Refuted otherwise (C83_all_after_distinct_refuted)."
  },
  {
   "property": "C84",
   "status": "partial",
   "theorems": [
    "Verif.Derived.PropertiesDerived.C84_distinct_each_row_once",
    "Verif.Derived.PropertiesDerived.C84_distinct_with_window_refuted"
   ],
   "note": "For all SELECTs without window functions whose HAVING is about selected columns. Refuted with window functions (C84_distinct_with_window_refuted)."
  },
  {
   "property": "C85",
   "status": "partial",
   "theorems": [
    "Verif.Binlog.PropertiesBinlog.C85_read_complete_partial",
    "Verif.Binlog.PropertiesBinlog.C85_consumer_complete_partial",
    "Verif.Binlog.PropertiesBinlog.C85_heartbeat_moves",
    "Verif.Binlog.PropertiesBinlog.C85_restart_refuted",
    "Verif.Binlog.PropertiesBinlog.C85_check_point_lost_refuted",
    "Verif.Binlog.PropertiesBinlog.C85_before_opening_refuted",
    "Verif.Binlog.PropertiesBinlog.C85_moves_refuted"
   ],
   "note": "For regions whose log begins with a heartbeat and restarts at which the check point on disk is set and no undecided transaction is older than it. Refuted otherwise (C85_restart_refuted, C85_check_point_lost_refuted, C85_before_opening_refuted). The progress part is for transactions that began after the first heartbeat and is refuted for others (C85_moves_refuted). The removal of old binlogs is not modelled."
  },
  {
   "property": "C86",
   "status": "partial",
   "theorems": [
    "Verif.Binlog.PropertiesCapture.C86_complete_partial",
    "Verif.Binlog.PropertiesCapture.C86_moves",
    "Verif.Binlog.PropertiesCapture.C86_transfer",
    "Verif.Binlog.PropertiesCapture.C86_flash_back_refuted"
   ],
   "note": "Under the conditions of C85 for each region and for a fixed set of regions. The loop of a flash back read does not end when a transaction is filtered out (C86_flash_back_refuted). The making of events from the changes is not modelled."
  },
  {
   "property": "C87",
   "status": "partial",
   "theorems": [
    "Verif.Hll.PropertiesHll.C87_add",
    "Verif.Hll.PropertiesHll.C87_convert",
    "Verif.Hll.PropertiesHll.C87_histogram",
    "Verif.Hll.PropertiesHll.C87_merge_partial",
    "Verif.Hll.PropertiesHll.C87_merge_agg_partial",
    "Verif.Hll.PropertiesHll.C87_contents_partial",
    "Verif.Hll.PropertiesHll.C87_estimate_partial",
    "Verif.Hll.PropertiesHll.C87_merge_aggregates_refuted",
    "Verif.Hll.PropertiesHll.C87_merge_agg_refuted"
   ],
   "note": "Proved for every expression in which no HLL_MERGE has the result of an aggregate, a raw sketch, as its first argument. HLL_MERGE(HLL_ADD_AGG(a), HLL_ADD_AGG(b)) drops b (C87_merge_aggregates_refuted). hll_merge_agg of a raw sketch into another encoding writes past the string (C87_merge_agg_refuted; no caller does it). The floating point estimate from the histogram is a parameter."
  },
  {
   "property": "C88",
   "status": "partial",
   "theorems": [
    "Verif.Ttl.PropertiesTtl.C88_created_with_ttl",
    "Verif.Ttl.PropertiesTtl.C88_turned_on_partial",
    "Verif.Ttl.PropertiesTtl.C88_statements_partial",
    "Verif.Ttl.PropertiesTtl.C88_statements_turned_on_partial",
    "Verif.Ttl.PropertiesTtl.C88_keep_refuted",
    "Verif.Ttl.PropertiesTtl.C88_far_expiry_refuted",
    "Verif.Ttl.PropertiesTtl.C88_unique_index_refuted",
    "Verif.Ttl.PropertiesTtl.C88_wide_table_refuted",
    "Verif.Ttl.PropertiesTtl.C88_reader_hangs_refuted",
    "Verif.Ttl.PropertiesTtl.C88_overflow_refuted"
   ],
   "note": "Proved in full for reads of tables created with TTL. For tables that get their TTL later: with fewer than 80 columns ever, expiry times before November 2120 and primary keys under unique indexes that do not start like a time; refuted without each (C88_wide_table_refuted, C88_far_expiry_refuted, C88_unique_index_refuted, C88_reader_hangs_refuted). For statements: without the keep hint on ON DUPLICATE KEY UPDATE (C88_keep_refuted) and without overflow (C88_overflow_refuted). Statements are modelled on the primary key; TTL on a column and global indexes are not."
  },
  {
   "property": "C89",
   "status": "partial",
   "theorems": [
    "Verif.Str.PropertiesStr.C89_substring_partial",
    "Verif.Str.PropertiesStr.C89_left_right_partial",
    "Verif.Str.PropertiesStr.C89_trim_partial",
    "Verif.Str.PropertiesStr.C89_pad_partial",
    "Verif.Str.PropertiesStr.C89_insert_partial",
    "Verif.Str.PropertiesStr.C89_replace_partial",
    "Verif.Str.PropertiesStr.C89_locate_partial",
    "Verif.Str.PropertiesStr.C89_substring_index_partial",
    "Verif.Str.PropertiesStr.C89_split_part_partial",
    "Verif.Str.PropertiesStr.C89_concat_partial",
    "Verif.Str.PropertiesStr.C89_repeat_reverse_partial",
    "Verif.Str.PropertiesStr.C89_null_partial",
    "Verif.Str.PropertiesStr.C89_null_refuted",
    "Verif.Str.PropertiesStr.C89_integer_refuted",
    "Verif.Str.PropertiesStr.C89_zero_refuted",
    "Verif.Str.PropertiesStr.C89_wide_number_refuted"
   ],
   "note": "For string arguments (and NULLs, C89_null_partial), numbers that fit 32 bits (LPAD and RPAD: lengths 1 to 65535) and patterns that are not empty. Refuted: NULL in TRIM, LPAD and REPLACE (C89_null_refuted), integer arguments of LEFT, RIGHT, TRIM and REPLACE (C89_integer_refuted), INSERT and REPEAT with 0 and CONCAT_WS of NULLs (C89_zero_refuted), wider numbers and two overflows (C89_wide_number_refuted). Character sets are not modelled: the code counts bytes."
  },
  {
   "property": "C90",
   "status": "partial",
   "theorems": [
    "Verif.Str.PropertiesStr.C90_reverse_repeat_concat",
    "Verif.Str.PropertiesStr.C90_substring_partial",
    "Verif.Str.PropertiesStr.C90_replace_partial",
    "Verif.Str.PropertiesStr.C90_substring_index_partial",
    "Verif.Str.PropertiesStr.C90_concat_ws_partial",
    "Verif.Str.PropertiesStr.C90_substring_index_refuted",
    "Verif.Str.PropertiesStr.C90_substring_refuted",
    "Verif.Str.PropertiesStr.C90_others_refuted"
   ],
   "note": "In full for REVERSE, REPEAT and CONCAT; SUBSTRING from places of at least 1; REPLACE on string columns; SUBSTRING_INDEX with a positive count or one row; CONCAT_WS with a value that is not NULL. Refuted otherwise (C90_substring_index_refuted, C90_substring_refuted, C90_others_refuted). Arrow's own kernels are modelled after their documentation."
  },
  {
   "property": "C91",
   "status": "partial",
   "theorems": [
    "Verif.Str.PropertiesCode.C91_hex",
    "Verif.Str.PropertiesCode.C91_unhex",
    "Verif.Str.PropertiesCode.C91_numerals",
    "Verif.Str.PropertiesCode.C91_char_length_partial",
    "Verif.Str.PropertiesCode.C91_char_length_refuted",
    "Verif.Str.PropertiesCode.C91_find_in_set",
    "Verif.Str.PropertiesCode.C91_field_elt_partial",
    "Verif.Str.PropertiesCode.C91_make_set_partial",
    "Verif.Str.PropertiesCode.C91_export_set",
    "Verif.Str.PropertiesCode.C91_null_refuted",
    "Verif.Str.PropertiesCode.C91_quote",
    "Verif.Str.PropertiesCode.C91_format_partial",
    "Verif.Str.PropertiesCode.C91_format_refuted"
   ],
   "note": "Proved except: CHAR_LENGTH counts only characters below U+0800 (C91_char_length_partial says exactly what it returns, C91_char_length_refuted); FORMAT of a negative number (C91_format_refuted); lists with a NULL in FIELD, ELT and MAKE_SET (C91_null_refuted). The writing of the rounded number by the C++ stream in FORMAT is a parameter."
  }
 ]
}