# Formal model of BaikalDB in Rocq (Coq 8.16.1)

## Method

The C++ in /repo is read as text and transcribed, function by function, into
total Gallina functions (`theories/<Area>/*Model.v`).  Each definition carries
a comment with the file and lines it models and any simplification.  What the
property means is written separately in `*Spec.v`, without using the model's
helpers.  Proofs are in `*Proofs.v`; `Properties*.v` contains only the final
theorems, non-vacuity `Example`s, and `Print Assumptions`.

Conventions used by every model:

* bytes are `Z` in `[0,256)`, byte strings are `list Z`; machine integers are
  `Z` with the wrap-around (`mod 2^n`) written where the code can wrap;
* undefined behaviour in C++ (shift too large, signed overflow, out of bounds
  read) is a distinct outcome, never a made-up value;
* persistent state is an explicit value and one model step is one atomic
  storage write, so that a crash point is "between two steps";
* a property the code does not have is stated in full and refuted by a
  concrete witness (`*_refuted`), next to the strongest true variant
  (`*_partial`), whose hypotheses name exactly what is excluded.

Status words in MANIFEST.json: *proved* - the English claim holds of the model
for everything it quantifies over (limits of the modelled types are named in
the note); *partial* - it fails in the refuted cases and is proved in all
others, or a named part of the code is not modelled.

## Trusted base

* Coq's kernel (coqc 8.16.1, re-checked with `coqchk`), including conversion by
  `vm_compute`.  No kernel check is switched off, no axiom is declared, there
  are no functors or module types, no plugins.
* What `Print Assumptions` lists for each theorem: for every theorem named in
  MANIFEST.json the answer is "Closed under the global context".  The table at
  the end is generated from the build output.
* `coqchk` reports seven axioms of the standard library module
  `Coq.ssr.ssrunder` (`Under_rel.*`), because a loaded library requires it.  No
  theorem depends on them.
* The transcription of C++ to Gallina, which is by hand, guarded by line
  citations and by the seeded-bug experiments in `seeded/LOG.jsonl`.
* Outside the model: the C++ compiler and memory model, RocksDB (modelled as an
  atomic-batch ordered map), braft (modelled as a totally ordered log), brpc
  (messages may be lost, delayed, repeated, reordered), the wall clock (an
  arbitrary sequence of readings), the SQL parser, Arrow/Parquet vectorised
  execution.

## Plan per property

| id | modelled | proof |
|----|----------|-------|
| C01, C02 | `KeyEncoder` integer encode/decode, byte swap, `append_*`/`extract_*` | big-endian lists compare as numbers (induction on width); xor of the sign bit = adding 2^(n-1) mod 2^n |
| C03 | `encode_f32/f64`, `decode_f32/f64` on bit patterns | spec gives each bit pattern its exact value as an integer multiple of the smallest subnormal; monotonicity by exponent/fraction case analysis |
| C04-C07 | `append_value`, `encode_key`, `decode_key`, `decode_field`, null-flag byte | induction on the column list; strings as NUL-terminated; explicit `OutOfBounds` outcome in the decoder |
| C08 | `end_key_compare` | order laws through lexicographic compare |
| C09, C10 | `gen_tso`, `reset_tso`, `update_tso`, `update_timestamp`, `on_leader_start`, snapshot, `TsoProxy::process_response` | invariant over all event sequences with arbitrary clock readings |
| C11, C12 | `add/drop_table_id`, `gen_id`, `update`, snapshot save/load | invariant over histories |
| C13 | `AutoInc::update_auto_inc` | induction on the rows, composed with the service model |
| C14, C15 | `MyRaftLogStorage` over an abstract ordered store with atomic batches | refinement to "first index + list of entries"; crash = any prefix of the writes followed by `init` |
| C16 | `IndexTermMap` (append, get_term linear and binary search, truncations) | refinement to the list of terms |
| C17 | `RaftLogCompactionFilter::Filter` | case analysis against the key layout |
| C18 | `Cache::add/find/del` | refinement to a recency-ordered association list |
| C19 | `localtime_fixed_r`, `mktime_fixed_r` | era decomposition; finite sweep over 146097 days lifted to all eras |
| C20-C22 | DATETIME/TIME packing, text parsing, `datetime_to_timestamp`, `date_add_interval` | bit-field arithmetic; parsing lemmas |
| C23, C24 | `like`, charset iterators, `hit_index`, `like_node_optimize` | greedy matcher vs. declarative relation; the usual leftmost-% exchange argument |
| C25 | And/Or/Xor/Not predicates, IN, comparisons, filters | truth tables, induction on trees against a value semantics with NULL |
| C26, C27, C41 | TopN heap, merge heap, LimitNode | heap invariant, permutation + sortedness; windows of lists |
| C28, C45-C48 | `DataBuffer`, row/field/OK/EOF packets, packet framing, prepared-statement parameters, handshake | independent decoder from the MySQL protocol document; round trips |
| C29, C30 | posting-list parser, Term/And/Or executors | refinement to sorted lists |
| C50, C51 | three-level storage, merge passes, range removal, cache, two-moment reads | invariant over all events against the list of writes |
| C31, C32 | `get_region_by_key`, `update_regions_table`, `get_clear_regions` | sorted-map lookups; coverage invariant over heartbeat histories |
| C33 | SQL node's commit protocol, region-side transaction, primary query, time-outs | transition system with arbitrary scheduling; inductive invariant; one refutation per hazard |
| C34 | `do_apply`, `dml_2pc`, `dml_1pc`, meta writer, restart recovery | simulation of the log's meaning with a stop after any atomic write |
| C35 | save points, cached plans, sequence numbers | leader, follower and rebuilt peer against "the standing statements" |
| C36 | split: copy, replay, compaction filter, `fits_region_range` | key layout algebra; case analysis on index types |
| C37, C49 | OLAP merge operator, rollup maintenance | associativity / fold laws over any regrouping |
| C38, C39 | `ExprValue::compare`, `compare_diff_type`, operators | arithmetic; order laws |
| C40 | RANGE/HASH partitions | binary search correctness; catalogue invariant |
| C42, C43 | `FilterNode::expr_optimize`, `predicate_cut`, OR into IN | per-column step invariant; equivalence of "every conjunct is TRUE" over all rows |
| C44 | row comparisons, row IN | induction on the width against three-valued SQL rows |
| C52 | `DMLNode::{insert_row,update_row,delete_row,remove_row}` over a store of rows and index records | each row of a statement against a relational specification; induction on the rows |
| C53, C54 | the same, with time and region cuts | invariant: index records and rows correspond, but for records just detached |
| C55 | `index_ddl_work` interleaved with statements | the invariant relative to the set of rows already covered |
| C56 | batches of `UpdateNode::open`, `DeleteNode::open` | induction on the batches |
| C57 | `_num_increase_rows` | balance of counter and row map preserved by every step |
| C58 | `IndexSelector` ranges, `AccessPath::calc_normal` / `calc_index_range`, the storage's reading of the ranges | every key range equals the joint set of the cut conditions (invariant of both loops), then the iterator theorem |
| C59 | `check_sort_use_index` | columns skipped by ORDER BY are fixed by the single range |
| C60 | `Iterator::open`, `get_next` over the sorted keys of an index | case analysis on the bounds, monotonicity of byte order |
| C61 | `AggNode` and `AggFnCall` on the regions and in the frontend | every call keeps an invariant "accumulated over these rows" through initialize, update, merge, finalize; induction on arriving rows; hash table partitions the rows |
| C62 | `encode_exprs_key` | injectivity of the key encoding (C01) plus the NULL byte |
| C63 | the two levels of `create_agg_node` | C61 for the inner level, partition of outer groups into inner ones |
| C64 | `multi_distinct_serialize`, `multi_distinct_unserialize` | round trip by induction on the set |
| C65 | `JoinNode` row executor: key columns, hash map, IN condition on the inner side, three resumable iterators | each iterator keeps "rows given ++ rows to come = all rows"; equality of encoded keys is equality of values (C01); exchange of the two loops up to permutation |
| C66 | the same with `_limit`, and `_analyze_limit` | the iterators give a prefix; a limited preserved side has enough rows |
| C67 | `predicate_pushdown` and `convert_to_inner_join` over trees of scans, filters and joins | filters commute with inner joins; a row without partner has NULLs, on which strict conditions are not TRUE; induction over the tree for conversion, then for pushdown |
| C68 | `WindowFnCall` with its intermediates, the three window processors, `create_window_spec` | frame borders as contiguous positions in a sorted partition; an invariant for each incremental function (rank, dense rank, ntile) over the rows done |
| C69 | `WindowNode::get_next` with the cached batch, partition offsets and last key; `drain` calls it with any capacities | invariant: the rows to come are cut into the same runs whatever is cached; sorted rows have their partitions together |
| C70 | `merge_window_node` | the planned frame of the first function is the frame of each under `coherent` |
| C71 | the four manager nodes as they compose lock commands; `lock_primary` and `lock_secondary` on a store of rows and index records | one lemma about LOCK_DML (deletions, then checked insertions) gives the rows and keeps the indexes; each statement is shown to send lists it applies to |
| C72 | `basic_insert`, `insert_replace`, UPDATE and DELETE managers | the lists sent against the row-by-row specification of theories/Dml/Spec.v; REPLACE keeps the last row of each chain of clashes |
| C73 | `insert_ignore`, `insert_on_dup_key_update` with its pointer map | exact characterisation for IGNORE; one-row refinement for ON DUPLICATE KEY UPDATE, counterexamples for more rows |
| C74 | the rewriting of the subquery and the predicate put in its place, over the rows of one column with any total order | three-valued `any3`, `all3`, `scalar` as specification; case analysis on operator and form of the subquery, induction over its rows |
| C75 | `minmax_remove` as a sort and LIMIT 1, and the aggregate | `is_min`, `is_max` as specification; induction over the insertion sort |
| C76 | the apply node: nested loop, hash map of the inner or outer side, slices of the outer side; the condition and join type of each predicate | invariant "emitted ++ still to do = result" per algorithm, over all capacities; `semi`, `anti`, `padded` and three-valued logic as specification |
| C77 | the grouping the apply node adds to an aggregation when it takes conditions out of it, and the aggregation per outer row | rows that satisfy equalities with the outer row are one group; then C76 |
| C78 | the records of the meta server, the requests that change them, the maps a frontend builds, `allow_op` | access and rights read off the history alone (`db_access`, `holds_tbl` ..) as specification; invariant per request linking them to the entries |
| C79 | meta server, heartbeats with any past state, one frontend with its objects and connections | invariant: versions grow, the frontend's object is a past record, a connection with the same version shares the object |
| C80 | the checks of GRANT, REVOKE and DDL | from the invariant of C78; bit masks bit by bit |
| C81 | the index of users by table and DROP TABLE | invariant: index = users with an entry; then induction over the users walked |
| C82 | statements, their plans, the pushing of conditions into derived tables and UNION branches, the run of the plan | induction over the plan: each node lets a condition on its grouping columns through; then run of the plan = meaning by induction over the statement |
| C83 | the parser's flag, the plan of UNION | the fold over the operators equals one DISTINCT at the end if the last operator is DISTINCT |
| C84 | DISTINCT planned as GROUP BY | grouping by the select list = first of equal rows |
| C85 | the log of a region as all histories of draws and entries; the rows, the map of open time stamps, the check point in memory and on disk, restart with its scan, the read loop with batches and limits | invariant of replicas (open transactions are in the map, the check point is at most the first of them), commit times drawn after the prewrite was logged give that nothing commits below the check point; the read returns a prefix of the selected rows |
| C86 | the caches per region, the positions asked for, insertion, merge, the new position, failures and timeouts; the loop over the queue | every cache is complete from the position up to its last entry (C85 gives it for one read); cutting complete pieces at the smallest last entry; the stable sort keeps each region's order |
| C87 | the three encodings at the level of bytes (bit macros, runs, splitting and joining of runs, promotion, packing), add, both merges, conversions, histograms, the cache; expressions of the SQL functions | bits of the packed number for the dense accesses; strings as lists of runs for the sparse ones; loops as pointwise maxima; induction over expressions with the invariant that each number is the best rank and a valid cache is the estimate |
| C88 | the expiry in front of stored values, its guessing by ttl_decode with the check of a row's fields (size_t offsets that wrap), point reads, scans, turning TTL on, the expiry member of the DML node over the rows of a statement | stored bytes represent a table of values with expiries; protobuf rows pass the check and a time in front of a row has a field number of at least 80; induction over histories and over the rows of a statement |
| C89 | the string functions over NULL, strings and integers, with the cut of numbers to 32 bits and the members read directly | the search returns the first occurrence; every loop over occurrences follows the unique cutting of the string into pieces, by induction on the cutting |
| C90 | the functions that build column expressions, the SubstringIndex kernel with its captured count, Arrow's kernels as documented | both evaluators compute the same pieces; induction over the rows of the column |
| C91 | the loops of the functions over bytes and bits; std::hex and std::oct as digit loops; FORMAT from the text of the rounded number | induction over bytes, digits, list elements and code points; a table of 256 bytes for the masks of CHAR_LENGTH |

## What is modelled and what is not

| area (theories/) | modelled code (under /repo) | left out |
|---|---|---|
| Key | include/common/{key_encoder,table_key,mut_table_key}.h, src/common/{table_key,table_record}.cpp, end_key_compare | protobuf record coding, full-text keys |
| Tso | src/meta_server/tso_state_machine.cpp, src/common/tso_proxy.cpp, src/store/store.cpp (time-stamp use) | the fetcher's degrade mode, raft itself |
| AutoInc | src/meta_server/auto_incr_state_machine.cpp, src/physical_plan/auto_inc.cpp | raft itself |
| Raft | src/raft/my_raft_log_storage.cpp, include/raft/{index_term_map,raft_log_compaction_filter,my_raft_log_storage}.h | braft, fsync semantics below RocksDB |
| Lru | include/common/lru_cache.h | concurrent use (every operation holds one lock) |
| Date | src/common/datetime.cpp, include/common/datetime.h | time zones other than a fixed offset, DATE_FORMAT |
| Like | src/expr/predicate.cpp, include/expr/predicate.h (LIKE), src/expr/expr_node.cpp like_node_optimize, src/exec/access_path.cpp (range of a prefix) | the RE2 path, EXACT_LIKE |
| Expr | include/common/expr_value.h, src/expr/{operators,predicate,scalar_fn_call,fn_manager,expr_node}.cpp, src/mem_row/mem_row_compare.cpp | string/date functions, aggregates, subqueries |
| Sort | src/runtime/{topn_sorter,sorter}.cpp, src/exec/{limit_node,sort_node,union_node,select_manager_node}.cpp | Arrow path |
| Proto | src/protocol/{mysql_wrapper,data_buffer,state_machine}.cpp, src/exec/packet_node.cpp | SSL, SQL text |
| Split | src/store/region.cpp (split copy and replay), include/engine/split_compaction_filter.h, src/engine/transaction.cpp | full-text indexes, deepest-level condition |
| Olap | src/engine/rocksdb_merge_operator.cpp, rollup parts of src/engine/transaction.cpp and src/common/table_record.cpp | online building of a rollup |
| Route | src/common/schema_factory.cpp (routing, updates) | concurrency of the double buffer |
| Part | src/meta_server/{table_manager,schema_manager,meta_util}.cpp, src/common/schema_factory.cpp, src/physical_plan/index_selector.cpp | the table switch beyond its effect on assignment |
| Txn | src/engine/{transaction,transaction_pool}.cpp, src/store/region.cpp, src/exec/{fetcher_store,transaction_node}.cpp, commit manager nodes | locks and deadlocks, binlog |
| Apply | src/store/{region,meta_writer,store}.cpp, src/raft/log_entry_reader.cpp | snapshots from other peers, splits, binlog, column storage |
| Rev | include/reverse/{reverse_interface.hpp,reverse_arrow.h}, include/reverse/boolean_engine/*, src/reverse/{boolean_executor,reverse_index}.cpp (parser, executors, tree); include/reverse/{reverse_index,reverse_common}.hpp (levels 1-3, merge thread, range removal, level-3 cache), src/store/region.cpp 5791-5828 | tokenizers, segment cache, statistics, weights, WeightedBooleanExecutor |
| Cut | src/exec/filter_node.cpp:71-544, src/expr/expr_node.cpp:461-472 and 648-839, include/expr/scalar_fn_call.h:61-133, src/expr/predicate.cpp:27-188, include/expr/row_expr.h | placeholders, LIKE, conditions on several tables, numbers given for date columns |
| Dml | src/exec/{dml_node,insert_node,update_node,delete_node}.cpp, src/engine/transaction.cpp (get_update_primary/secondary, put_primary/secondary, remove, column variants), src/exec/rocksdb_scan_node.cpp:1165-1351 | global, full-text, vector and rollup indexes, MERGE inserts, binlog, replace_no_get, lock conflicts |
| Path | src/physical_plan/index_selector.cpp:30-797 (ranges), src/exec/access_path.cpp:65-607, include/exec/access_path.h:92-128, src/exec/rocksdb_scan_node.cpp:195-251 and 905-1105, src/engine/table_iterator.cpp:86-456 | choice of the index by cost, full-text and vector indexes, join keys, date_range_to_in, partitions, column storage |
| Agg | src/exec/agg_node.cpp, src/expr/agg_fn_call.cpp:323-1253, src/exec/exec_node.cpp:555-571, src/logical_plan/select_planner.cpp:594-705, src/physical_plan/separate.cpp:240-262 | HLL, t-digest, MULTI_GROUP_CONCAT_DISTINCT, vectorized execution, LIMIT inside the node, floating-point SUM |
| Join | src/exec/joiner.cpp:82-219, 448-699, src/exec/join_node.cpp:63-221, 920-1326, src/exec/filter_node.cpp:545-563, src/expr/expr_node.cpp:136-155, src/physical_plan/limit_calc.cpp | Arrow execution (and with it FULL JOIN), apply nodes, loop join of full exports, "=" between text and numbers, join_key_cast_like_mysql |
| Window | src/exec/window_node.cpp, src/expr/window_fn_call.cpp, src/logical_plan/logical_planner.cpp:2213-2485, src/logical_plan/select_planner.cpp:1501-1531 | floating-point SUM, several windows in one query (nodes in a chain), vectorized execution, parsing |
| Global | src/exec/insert_manager_node.cpp, update_manager_node.cpp, delete_manager_node.cpp, lock_primary_node.cpp, lock_secondary_node.cpp, src/physical_plan/separate.cpp:683-731 | spreading over regions (Route), the transaction (Txn), local indexes of the same table (Dml), indexes being built, TTL, column stores, binlog |
| Subquery | src/logical_plan/logical_planner.cpp:172-234, 2610-2653, 2839-3336, src/logical_plan/select_planner.cpp:394-555 | subqueries of several columns, conversions of literals, EXPLAIN, vectorized execution |
| Subquery (apply) | src/exec/apply_node.cpp (row execution), the parts of src/exec/joiner.cpp it uses, src/logical_plan/logical_planner.cpp:233-250, 2518-2660, 3235-3345 for correlated subqueries | vectorized execution, predicate below OR, subqueries with LIMIT, aggregates in the SELECT list |
| Subquery (aggregates) | src/exec/apply_node.cpp:57-185 over an aggregation, include/exec/agg_node.h add_group_expr | the aggregation (Agg), GROUP BY and HAVING in the subquery |
| Priv | src/meta_server/privilege_manager.cpp, include/session/user_info.h:31-203, src/common/schema_factory.cpp:1522-1670, src/protocol/state_machine.cpp:624-681 and 1040-1048, src/logical_plan/ddl_planner.cpp:26-35, 136-227, 2930-3006, src/meta_server/table_manager.cpp:6615-6631 | services as addresses (bns), namespaces, the persistence of the records, looking names up, the parser of GRANT |
| Derived | src/exec/dual_scan_node.cpp:129-262, 576-732, src/exec/union_node.cpp:54-278, src/logical_plan/union_planner.cpp, src/logical_plan/select_planner.cpp:28-178 and 594-640, src/expr/expr_node.cpp:233-343, include/sqlparser/sql_parse.y:2045-2102 | joins in FROM (see Join), types of UNION columns, agg and column pruning pushdown (off by default), vectorised execution, expressions that are not deterministic |
| Binlog | src/store/region_binlog.cpp:445-1020, 1025-1091, 1206-1358, 1420-1655 | removal of old binlogs and data_cf_oldest_ts, offline binlogs, flash back reads, the cache of answers (off by default), snapshots sent to new peers, recover_binlog |
| Binlog (subscriber) | src/tools/baikal_capturer.cpp:24-160, 172-212, 251-345 (loop), 743-871 | the making of events (transfer_mutation, multi_records_to_event), changes of the set of regions, two equal commit time stamps in the queue (its comparison is not a strict order) |
| HyperLogLog | src/common/hll_common.cpp, include/common/hll_common.h, src/expr/internal_functions.cpp:2293-2349, src/expr/agg_fn_call.cpp (HLL parts) | the doubles of hll_sigma, hll_tau and the final sum (a parameter); the magic and the length of the header; NULL and non HLL arguments; the hash of a value |
| TTL | include/engine/transaction.h:39-53, src/engine/transaction.cpp:41-135, 188-197, 580-633, 745-760, 846-860, 1175-1190; src/engine/table_iterator.cpp:447-475, 599-622; src/common/tuple_record.cpp:37-85, include/common/tuple_record.h:37-76; src/store/region.cpp:8501-8581; src/exec/dml_node.cpp:65-68, 254, 263-327, 707-784 | TTL on a column, the removal of expired rows (ttl_delete_node), the column store, full text indexes, global indexes, secondary index entries of statements, checks of unique entries that only log |
| String functions | src/expr/internal_functions.cpp:391-650, 688-835, 1263-1313; src/expr/arrow_string_function.cpp:27-75, 98-119, 141-194, 242-290; include/common/expr_value.h:340-360, 704-742 | character sets, arguments of other types than string and integer, upper and lower, json, regular expressions, hashes and base64, memory exhaustion, Arrow's kernels (as documented) |
| Text encodings | src/expr/internal_functions.cpp:2965-3019, 3047-3136, 3156-3303 | arguments of other types than string and integer, base64, the rounding of FORMAT, SOUNDEX, CHAR |

## Findings: where the code does not have the property

Each item was found while modelling; those with a theorem name are refuted in
Coq by a concrete run of the model, the others are observations made while
reading.

Raft log
* `RaftLogCompactionFilter` is never installed on the raft-log column family
  (rocks_wrapper.cpp 206); `truncate_prefix`'s `remove_range` ignores the split
  index, and the index map is not updated after a truncation (513).
* `truncate_suffix` ignores a failed write; a crash inside `truncate_prefix`
  leaves entries below the first index readable; `reset` to an index below the
  first one loses an acknowledged append on reopen.

LRU: keeps max(threshold - 1, 1) entries, one less than configured.

Dates
* adding a negative number of months that lands on January by whole years goes
  one year too far (`C22_add_months_refuted`); `str_to_datetime` accepts minus
  signs and reads past the end after leading blanks; `seconds_to_time` wraps at
  1024 hours; `bin_date_to_datetime` maps year 70 only.

LIKE
* `NULL LIKE '%'` is TRUE; a lone trailing backslash; GBK second byte 0x5C; the
  rewriting of LIKE into a range mishandles an escaped final `%`, a prefix of
  0xFF bytes, and reads before an empty pattern.

Expressions
* a NULL hidden beside IN; IN against a narrow column casts the literals;
  fractional literals against integer columns; comparison with NULL on the
  right reads a zero; row comparisons treat NULL as equal; INT -1 > UNSIGNED 1;
  signed overflow; `float_value` of a byte is multiplied by 257; BOOL addition
  goes into the wrong field; predicate cutting drops `a > NULL`; rewriting OR
  into IN loses multiplicities; row IN keys are joined with a NUL byte.

Sorting
* TopN with limit 0 reads the root of an empty heap; `SortNode` stops at an
  empty batch that is not the last; `SelectManagerNode` and `UnionNode` do not
  trim the last batch at the limit.

Protocol
* rows of SHOW commands send an empty string as NULL; rows of 16 MB and more are
  not split on the vectorised path; DATETIME microseconds and TIMEs of whole
  days are sent wrongly in the binary protocol; TIMESTAMP 0 differs between text
  and binary; a zero TIME parameter shifts the following ones; a string length
  near 2^64 wraps a bound check; parameter types are read without a bound check;
  the authentication challenge is constant, so responses can be replayed.

Splits: an online TTL change is not told to the compaction filter; BIGINT
primary keys that look like times, nullable primary keys and MODIFY COLUMN ...
NULL are misjudged; a TTL value shorter than 8 bytes is read past its end.

OLAP: partial merge keeps the newer row's other columns, full merge the older's;
a NULL version drops all operands of the call; rollup deletes support INT32 and
INT64 only.

Routing: a record is dropped without an error when no region starts at or before
its key (`C31_record_dropped_refuted`); two heartbeats that hide a split and a
merge leave overlapping entries; a merge at the smallest key is never learned.

Partitions: negative HASH values; unsigned values above 2^63; comparators that
are not strict (undefined behaviour in `std::sort`); equal bounds accepted;
names compared with case at the meta server, without at the frontend; pruning by
an expression ignores ADDITIONAL partitions.

Transactions
* C33: an untagged rollback of a write-free primary, its loss at a leader change,
  a stale answer to a question asked before PREPARE, forced removal, a late
  statement on a write-free prepared part, cleared finished marks, and the
  finished mark left by a primary that never answered each break atomicity.
* C34: a stop inside a restart applies writes twice; two stops around COMMIT lose
  a committed transaction; a stop inside a one-phase commit applies it twice; the
  log can be truncated past an open transaction; the row count loses what open
  transactions added at every restart; PARTIAL_ROLLBACK of an absent transaction
  dereferences a null pointer.
* C35: a SELECT that arrives late moves the sequence number back, and a repeated
  INSERT runs twice; the follower's row count adds running totals.

Full-text search
* C29, C30: the iterator compares every entry with the end of the range except the
  first one; a region without start key returns a first entry that belongs to
  another region (left behind by a split).
* C29, C30: a seek before the first next finds nothing (terms and ORs).
* C29: an Arrow list has one node buffer shared by all iterators over it; a query
  that names a term twice, or two queries sharing a cached list, read each
  other's position.  `a b|a c` with a = {1,5}, b = {5}, c = {1} loses document 1.
* Weights are added into nodes of shared, cached lists (read, not modelled).
* A sub-query without terms (only separators) is ignored, also in an AND (read).
* C50: with `reverse_seek_first_level` on, reading a term that has an entry in level 1
  dereferences a store pointer that the iterator was never given.
* C50: entries are ordered by wall clock; a clock that goes back resurrects a deleted
  document, and two transactions in one microsecond can lose the second.
* C50: a term with a NUL byte is merged under its part before the NUL; a term that
  starts with eight 0xFF bytes is never merged.
* C50: the range of an index is in memory and taken over only by the merge thread:
  before its first round after a split or restart, documents of the other region are
  returned.  The request to trim after a split is in memory only.
* C51: the level-3 cache is cleaned at the end of a pass only; during the pass
  documents just moved are missing.  A list cached by a slow reader after the
  cleaning, or a pass that fails, leaves the old list in the cache.
* C42: a NULL bound is compared as if it were the smallest value when bounds are merged:
  `a > 5 AND a > NULL` returns rows, `a <= 0 AND a >= NULL` becomes `a = 0`.
* C42: IN lists on one column are intersected by text, so NULL meets the empty string:
  `a IN ('', 'y') AND a IN (NULL, 'x')` becomes `a IN ('')`.
* C42: `(a, a) = (1, 2)` is rewritten to `(a, 2) = (1, 2)`.
* C42: `a = 1 AND (a, b) IN ((1, 2)) AND (a, c) = (1, 2)` reads a freed column node.
* C42: the comparators given to std::sort call two equal strict bounds each less than the
  other; 17 copies of `a < 5` are undefined behaviour.
* C43: `a = NULL OR a = 9007199254740993` becomes an IN evaluated in DOUBLE and finds
  9007199254740992.
* C43: an OR of ANDs that repeats a column loses rows.
* C43, C44: keys of row IN lists are joined with NUL bytes, so strings with NUL collide;
  DOUBLE columns are compared by their "%.12g" text.
* C44: `(a, b) = (NULL, 1)` is TRUE for a NULL and for 0; `(a, b) < (5, 1)` and
  `(a, b) <> (1, 2)` are TRUE for a NULL; row IN gives NULL where SQL gives FALSE.
* C54: two rows with NULL in a UNIQUE column are refused as duplicates.
* C52, C53: `UPDATE t SET a = NULL` on a nullable column with DEFAULT 7 leaves 7 in the row
  (a missing field decodes as the default), and after the row is deleted the index keeps a
  record of it.
* C52: in a column store `INSERT ... ON DUPLICATE KEY UPDATE v = v + 1` computes from NULL:
  the columns read by SET are fetched for UPDATE and DELETE only.
* C52: `ON DUPLICATE KEY UPDATE id = ...` to a key of another region deletes the row and
  answers "2 rows affected".
* C52: with row TTL "keep", rows inserted after an updated one in the same statement take
  over the old row's expiry time.
* C55: ADD UNIQUE INDEX with concurrent statements: row 1 has u = 5; (2, 5) is inserted, row 1
  deleted (which removes the index record of row 2), the filling finds no row 1; the index
  misses row 2 and admits (3, 5).
* C56: an UPDATE outside a transaction that fails in a later batch leaves the earlier batches
  changed.
* C58: `a IN (1, 2) AND b LIKE 'x_'` on PRIMARY KEY (a, b) loses all rows: the prefix is appended
  twice to the right key (access_path.cpp, LIKE_PREFIX with in_records).
* C58: `b LIKE 'x_' AND (a, b) = ('y', 'z')`, `(b, a) = ('y', 1) AND b LIKE 'x'` and MATCH (b) AND
  `(a, b) = (1, 2)` return rows that violate a condition: a dropped condition is not implied by the range.
* C58: a condition on a later index column is dropped when an earlier one only has a MATCH.
* C58: `int_col < 3000000000` returns nothing: the constant is cut to 32 bits.
* C58: `(a, b) > (1, NULL)` returns nothing although a = 2 decides; `int_col LIKE '1a'` returns the row 1;
  `(a, a) = (1, 2)` returns the row 2.
* C58: KEY (a) with PRIMARY KEY (a, b): `(a, b) > (1, 1) AND (a, b) < (2, 5)` loses (2, 3).
* C60: keys that continue a closed upper bound with more than 24 bytes 0xff are not read.
* C61: RB_AND_AGG over several regions is the empty bitmap when the first partial result of a group is NULL.
* C61: COUNT/SUM DISTINCT of several columns: a region where a group has only NULLs sends an empty string and
  `multi_distinct_unserialize` reads past its end; SUM(DISTINCT) of no rows is 0, not NULL.
* C62: a NULL in the ninth or later GROUP BY expression shifts by a negative count; strings with NUL bytes collide;
  all values of JSON and other types without an encoding are one group.
* C63: COUNT(DISTINCT a) beside AVG(DISTINCT b) or GROUP_CONCAT(x ORDER BY y) counts combinations instead of values.
* C63: GROUP_CONCAT(s ORDER BY k) omits the separators after leading empty strings.
* C65: a LEFT JOIN with an equality and a further ON condition returns an unmatched row once per candidate with equal
  key (joiner.cpp:660-670); with nested loops a row whose partner came before a full batch comes again with NULLs.
* C65: NULL is appended to a hash key as nothing: (NULL, 'AB') matches (65, 'B') for an UINT8 and a text column; text keys
  with NUL bytes collide.  The equalities are not checked again after the hash lookup.
* C66: nested loops count every inner row after a match towards LIMIT and stop too early; FULL JOIN ... LIMIT k limits both
  sides and returns rows without partner that have one.
* C67: an ON condition of an outer join about the preserved side only (`(a LEFT JOIN b ..) LEFT JOIN c ON .. AND b.x = 1`) turns
  the join of a and b into an INNER JOIN, though it only decides which rows of c match.  `NOT (a.x = 1 AND b.x = 1)`,
  `.. IS NOT TRUE` and `b.x = 1 OR 1` turn a LEFT JOIN into an INNER JOIN although they hold for rows with NULLs.
  A correlated condition over a LEFT JOIN is dropped by `JoinNode::predicate_pushdown` (kept for INNER JOIN only).
* C70: `merge_window_node` gives all functions with the same OVER text the frame of the first one:
  `SELECT ROW_NUMBER() OVER (ORDER BY y), SUM(x) OVER (ORDER BY y)` returns the total in every row instead of running sums.
* C68: a frame distance is cast to INT32 (`ROWS 4294967297 PRECEDING` is `1 PRECEDING`), a large FOLLOWING overflows an int;
  `NTH_VALUE(x, 4294967297)` is the first value; SUM of BIGINT UNSIGNED is computed as BIGINT.
* C73: on a table with two UNIQUE global indexes, `INSERT INTO t VALUES (4,10,30,0),(5,40,20,0) ON DUPLICATE KEY UPDATE c=c+1` with (1,10,20,5) stored
  dereferences a null pointer in `insert_on_dup_key_update`: only the first index through which a row was found gets a pointer to it.
* C73: `INSERT .. (4,10,30,0),(5,40,30,0) ON DUPLICATE KEY UPDATE ..` with (1,10,20,5) stored loses the second row: it is merged into the first, which was already merged into the stored row.
  Updates are applied key by key, not in the order of the rows. The affected-rows count is 4 if one row clashes with two stored ones.
* C73: INSERT IGNORE drops a row that clashes only with a row of the same statement that is itself ignored.
* C72: REPLACE of two rows that clash with each other and with a stored row counts one row too few.
* C74: `x NOT IN (SELECT .. )` and `x < ALL (SELECT .. )` over no rows are NULL, so that no row passes; SQL says TRUE.
* C74: `x <> ANY (SELECT .. )` is FALSE as soon as the subquery has two different values. `x = ALL` takes a NULL for 0.
* C74: `5 > ANY (1, NULL)` is NULL because the smallest value is found with ORDER BY, where NULL comes first; `5 > ALL (1, NULL)` is TRUE. LIMIT in the subquery is lost with > ALL.
* C75: `SELECT MIN(c)` is NULL if any row has NULL in the column: it is run as ORDER BY c LIMIT 1. `SELECT MAX(c) .. LIMIT 0` gives a row.
* C76: `x NOT IN (SELECT c .. WHERE t2.k = t1.k)` and `x > ALL (..)` keep rows for which a NULL makes the predicate NULL.
* C76: `EXISTS (SELECT c .. WHERE t2.k = t1.k)` takes the first expression of the SELECT list for a condition: rows with c = 0 or NULL do not count.
* C76: `x = (SELECT c .. WHERE t2.k = t1.k)` gives a row, not an error, if the subquery has several rows; `x < (SELECT c .. WHERE t2.k > t1.k)` fails though the subquery has one row.
* C77: `0 = (SELECT COUNT(c) .. WHERE t2.k = t1.k)` loses the rows without a row in t2: the count is grouped by t2.k and has no row for them.
* C77: `x = (SELECT SUM(c) .. WHERE t2.k > t1.k)` sums all rows of t2 and tests t2.k > t1.k on one of them.
* C78: `acl_database.count(db) > 1` is never true of a map, so rights granted on a database or everywhere are not used unless the table is also named in a GRANT; GRANT INSERT ON db.* lets the user read every table of db and insert into none.
* C78: REVOKE of the rights on a database leaves an entry that counts as READ access.
* C78: access to a table holds for tables of the same name in all databases.
* C78: readers cannot run UNION.
* C79: dropped users stay known to the frontends and can log in; created again they keep the old password and privileges there, because versions start at 1 again.
* C80: with default flags a user without rights may GRANT anything to anybody and drop any table; a user WITH GRANT OPTION may not grant.
* C81: GRANT and REVOKE on a table take the user out of the index but leave the entry, so DROP TABLE does not remove it.
* C82: a WHERE condition that is just a column is pushed below windows and GROUP BY whatever they group by, because only the children of the expression are searched for columns; a condition on a constant column is pushed below an aggregation without GROUP BY, which still returns a row (SELECT * FROM (SELECT 1 k, COUNT(*) FROM t UNION ALL SELECT 2, COUNT(*) FROM t) x WHERE k = 2 returns both); the argument of a DISTINCT aggregate counts as GROUP BY column.
* C83: the operators of a UNION share one flag, so UNION ALL after UNION removes duplicates.
* C84: SELECT DISTINCT makes the rows distinct before window functions are computed.
* C85: the check point on disk may be newer than a transaction that is prewritten later with an older start time. A restart then forgets the transaction, the check point passes its commit time and readers never get it. After a restart on a commit row, an entry that changes nothing makes the next check point written to disk -1, with the same effect at the next restart. Transactions prewritten before the first heartbeat of a region are not waited for. A transaction that began before the first heartbeat and commits after it stops every reader that stands before it (LESS_THAN_OLDEST_TS for ever).
* C86: BinLogTransfer::run leaves a transaction that the filters of a flash back read refuse in its queue and goes round for ever.
* C87: hll_merge has no case for a raw sketch as target: HLL_MERGE with the result of HLL_ADD_AGG or HLL_MERGE_AGG as first argument silently drops the other sketch unless it is dense. hll_merge_agg of a raw sketch into a dense one indexes the packed registers as bytes and writes past the end.
* C88: DMLNode::update_row stores the expiry it keeps in the node's member, so rows inserted later by the same INSERT ... ON DUPLICATE KEY UPDATE get the remaining life of an earlier duplicate row.
* C88: after TTL is turned on for a table, a row written with an expiry after November 2120 (a TTL of 100 years) is read with the expiry as part of its value; a unique index entry of an old row whose BIGINT primary key is a time in microseconds loses its primary key and may count as expired (ttl_decode notices and only logs); with 80 or more columns an old row can lose its first column and expire at once.
* C88: TupleRecord::verification_fields adds a length of up to 2^64-1 to a size_t offset: on a table with 96 columns and TTL turned on, a row with a suitable byte string makes its reader loop for ever.
* C88: a hint with a very large ttl_duration overflows the expiry (undefined behaviour).
* C90: the kernel SubstringIndex changes its captured count: SUBSTRING_INDEX(col, sep, -1) over a column of 'a.b.c' gives 'c' for the first row and 'a' for the second; over 'a.b' the second row reads past the end of pos_vec.
* C90: SUBSTRING(col, 0), SUBSTRING(col, NULL) and SUBSTRING(col, p) before the start return the whole string when evaluated by column and '' or NULL by row; SUBSTRING(col, -1, 1) is '' by column. CONCAT_WS of NULLs is NULL by row and '' by column.
* C89: TRIM(NULL) is ''; LPAD(NULL, n, p) is padding; REPLACE(s, NULL, t) is s; LEFT, RIGHT, TRIM and REPLACE treat an integer as ''; INSERT(s, p, 0, t) inserts nothing; numbers are cut to 32 bits; LOCATE(a, b, -2147483648) and SUBSTRING_INDEX(s, t, -2147483648) overflow.
* C91: char_length does not count characters of three or four UTF-8 bytes: CHAR_LENGTH of a Chinese text is 0.
* C91: FORMAT(-123, 0) is '-,123'. A NULL in the list makes FIELD, ELT and MAKE_SET NULL even if it is not the element asked for.

## Print Assumptions

Generated from the output of the build: number of `Print Assumptions` commands,
and how many of them answer "Closed under the global context".

| file | theorems | closed | with axioms |
|---|---|---|---|
| Agg/Properties.v | 6 | 6 | 0 |
| Agg/PropertiesRef.v | 8 | 8 | 0 |
| Apply/Properties.v | 11 | 11 | 0 |
| AutoInc/Properties.v | 9 | 9 | 0 |
| Binlog/PropertiesBinlog.v | 7 | 7 | 0 |
| Binlog/PropertiesCapture.v | 4 | 4 | 0 |
| Cut/Properties.v | 20 | 20 | 0 |
| Date/Properties.v | 36 | 36 | 0 |
| Derived/PropertiesDerived.v | 10 | 10 | 0 |
| Dml/Properties.v | 14 | 14 | 0 |
| Dml/PropertiesRef.v | 8 | 8 | 0 |
| Expr/Properties.v | 18 | 18 | 0 |
| Global/Properties.v | 16 | 16 | 0 |
| Hll/PropertiesHll.v | 9 | 9 | 0 |
| Join/Properties.v | 5 | 5 | 0 |
| Join/PropertiesPlan.v | 8 | 8 | 0 |
| Join/PropertiesRef.v | 6 | 6 | 0 |
| Key/Properties.v | 23 | 23 | 0 |
| Like/Properties.v | 15 | 15 | 0 |
| Lru/Properties.v | 6 | 6 | 0 |
| Olap/Properties.v | 9 | 9 | 0 |
| Part/Properties.v | 17 | 17 | 0 |
| Path/Properties.v | 5 | 5 | 0 |
| Path/PropertiesRef.v | 11 | 11 | 0 |
| Priv/PropertiesPriv.v | 21 | 21 | 0 |
| Proto/Properties.v | 22 | 22 | 0 |
| Raft/Properties.v | 10 | 10 | 0 |
| Rev/Properties.v | 11 | 11 | 0 |
| Rev/PropertiesLevel.v | 15 | 15 | 0 |
| Route/Properties.v | 14 | 14 | 0 |
| Sort/Properties.v | 11 | 11 | 0 |
| Split/Properties.v | 12 | 12 | 0 |
| Str/PropertiesCode.v | 13 | 13 | 0 |
| Str/PropertiesStr.v | 24 | 24 | 0 |
| Subquery/Properties.v | 18 | 18 | 0 |
| Subquery/PropertiesAgg.v | 5 | 5 | 0 |
| Subquery/PropertiesApply.v | 10 | 10 | 0 |
| Tso/Properties.v | 12 | 12 | 0 |
| Ttl/PropertiesTtl.v | 10 | 10 | 0 |
| Txn/PropertiesCommit.v | 12 | 12 | 0 |
| Txn/PropertiesSave.v | 9 | 9 | 0 |
| Window/Properties.v | 10 | 10 | 0 |
| total | 520 | 520 | 0 |
