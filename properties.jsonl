{"id": "C01", "title": "Integer index keys sort like the integers", "statement": "For every integer column type (TINYINT..BIGINT, signed and unsigned, DATE, TIME, DATETIME, TIMESTAMP), the bytes stored in an index key compare, byte by byte, exactly as the column values compare as numbers; so a range scan over an integer index returns exactly the rows whose values lie in the range.", "quantifier": "every pair of values of every integer width and signedness (2^64 x 2^64 pairs for 64-bit columns)", "why_tests_cant": "the pairs of 64-bit values cannot be enumerated, and the classic failures (sign bit, byte order) show only on particular pairs", "anchors": ["include/common/key_encoder.h:KeyEncoder::encode_i64", "include/common/key_encoder.h:KeyEncoder::to_endian_u64", "include/common/mut_table_key.h:MutTableKey::append_i64"]}
{"id": "C02", "title": "Integer index keys decode to the value that was written", "statement": "Reading an integer column back from an index key, at the offset where it was written, yields the value that was stored, whatever bytes precede and follow it.", "quantifier": "every value of every integer width and every surrounding key", "why_tests_cant": "exhaustive testing over 64-bit values and arbitrary neighbouring bytes is impossible", "anchors": ["include/common/key_encoder.h:KeyEncoder::decode_i64", "include/common/table_key.h:TableKey::extract_i64"]}
{"id": "C03", "title": "FLOAT/DOUBLE index keys sort like the numbers", "statement": "For all FLOAT and DOUBLE values other than NaN the stored key bytes compare exactly as the numeric values do (with -0 equal to +0, infinities at the ends), and decoding a key yields a value numerically equal to the one stored.", "quantifier": "every pair of non-NaN binary32 / binary64 bit patterns, including subnormals, zeros and infinities", "why_tests_cant": "2^64 bit patterns; subnormal and signed zero corners are exactly what sampled tests miss", "anchors": ["include/common/key_encoder.h:KeyEncoder::encode_f32", "include/common/key_encoder.h:KeyEncoder::encode_f64", "include/common/key_encoder.h:KeyEncoder::decode_f64"]}
{"id": "C04", "title": "Composite keys sort column by column", "statement": "The byte order of encoded multi-column keys equals the column-by-column order of the tuples when the columns are NOT NULL; with nullable columns of a secondary index, rows are first grouped by which columns are NULL (leftmost column most significant, non-NULL before NULL) and within a group ordered by the non-NULL columns; string columns are assumed free of NUL bytes. A prefix scan for leading column values plus a string prefix meets exactly the keys of the matching rows.", "quantifier": "every list of column types and every pair of rows of those types", "why_tests_cant": "unbounded column counts, string lengths and values", "anchors": ["src/common/table_record.cpp:TableRecord::encode_key", "include/common/mut_table_key.h:MutTableKey::append_string"]}
{"id": "C05", "title": "Distinct primary keys never share a stored key", "statement": "Two rows whose primary keys differ are stored under different keys, and two rows with equal primary keys under the same key; so an insert never silently overwrites another row.", "quantifier": "every primary key definition and every pair of key tuples (strings free of NUL bytes; the NUL case is examined separately)", "why_tests_cant": "collisions depend on adversarial adjacent variable-length columns; the space is infinite", "anchors": ["src/common/table_record.cpp:TableRecord::encode_key", "include/common/mut_table_key.h:MutTableKey::append_string"]}
{"id": "C06", "title": "Rows decoded from an index key equal the rows encoded", "statement": "Decoding an index key produced for a row restores every key column, including which nullable columns are NULL, and consumes exactly the bytes that were produced, for key definitions accepted by the encoder.", "quantifier": "every index definition accepted by the encoder, every row", "why_tests_cant": "combinations of NULL columns, widths and string contents are unbounded", "anchors": ["src/common/table_record.cpp:TableRecord::decode_key", "src/common/table_key.cpp:TableKey::decode_field"]}
{"id": "C07", "title": "Decoding a damaged or truncated key never reads past its end", "statement": "Decoding an index key of any content and any length either restores a row or reports an error; it never reads a byte outside the key.", "quantifier": "every byte string and every index definition", "why_tests_cant": "all byte strings; over-reads usually do not crash in tests", "anchors": ["src/common/table_key.cpp:TableKey::decode_field", "src/common/table_record.cpp:TableRecord::decode_key"]}
{"id": "C08", "title": "Region bounds: an empty end key means plus infinity, consistently", "statement": "The comparison used for region end keys is a total order in which the empty key is greater than all others; a non-empty key lies in [start, end) exactly when neither bound excludes it.", "quantifier": "every triple of byte strings", "why_tests_cant": "order axioms (transitivity) quantify over all triples", "anchors": ["include/common/table_key.h:end_key_compare"]}
{"id": "C09", "title": "The timestamp oracle never issues a timestamp twice and always moves forward", "statement": "Every timestamp range handed out by the timestamp service is strictly greater than every timestamp in every range handed out before it, across clock jumps, periodic updates, leader changes, crashes and restarts from a snapshot.", "quantifier": "every interleaving of requests, clock readings (including backward jumps), timer ticks, leadership changes and restarts", "why_tests_cant": "the property is about all histories; the bad schedules involve clock regressions across failover", "anchors": ["src/meta_server/tso_state_machine.cpp:TSOStateMachine::gen_tso", "src/meta_server/tso_state_machine.cpp:TSOStateMachine::update_timestamp", "src/meta_server/tso_state_machine.cpp:TSOStateMachine::on_leader_start"]}
{"id": "C10", "title": "A TSO request of n timestamps gets n usable timestamps", "statement": "When a request for n timestamps succeeds, the n consecutive timestamps starting at the returned one all have a logical part that fits in 18 bits, and clients batched into a single request receive disjoint sub-ranges of it.", "quantifier": "every request count, every state of the oracle, every batch of client requests", "why_tests_cant": "boundary conditions at the 2^18 logical wrap depend on the accumulated history", "anchors": ["src/meta_server/tso_state_machine.cpp:TSOStateMachine::gen_tso", "src/common/tso_proxy.cpp:TsoProxy::process_response"]}
{"id": "C11", "title": "Auto-increment ids are never issued twice", "statement": "Successive id ranges obtained for a table are disjoint and increasing, whatever interleaving of id requests, explicit-id updates, snapshots and restarts occurs, as long as no forced rollback is requested and 64-bit overflow is not reached.", "quantifier": "every history of requests over every set of tables", "why_tests_cant": "histories are unbounded", "anchors": ["src/meta_server/auto_incr_state_machine.cpp:AutoIncrStateMachine::gen_id", "src/meta_server/auto_incr_state_machine.cpp:AutoIncrStateMachine::update"]}
{"id": "C12", "title": "Ids generated after an explicit id are larger than it", "statement": "After rows with explicit ids up to m were inserted, every id generated later for that table is greater than m.", "quantifier": "every history and every explicit id", "why_tests_cant": "needs all interleavings of explicit and generated inserts", "anchors": ["src/meta_server/auto_incr_state_machine.cpp:AutoIncrStateMachine::gen_id", "src/physical_plan/auto_inc.cpp:AutoInc::update_auto_inc"]}
{"id": "C13", "title": "An INSERT gives each row without an id a distinct fresh id and keeps explicit ids", "statement": "For a multi-row INSERT, rows with an explicit non-zero id keep it; the other rows get pairwise distinct ids larger than all explicit ids in the statement and larger than all ids given before.", "quantifier": "every list of rows and every service state", "why_tests_cant": "row lists are unbounded and mix explicit and missing ids arbitrarily", "anchors": ["src/physical_plan/auto_inc.cpp:AutoInc::update_auto_inc"]}
{"id": "C14", "title": "The raft log returns exactly what was appended", "statement": "After any sequence of appends and truncations the log returns, for each index between first and last, the data and term of the last entry appended at that index and not truncated since; outside the range it returns nothing.", "quantifier": "every sequence of append / truncate_prefix / truncate_suffix / reset operations", "why_tests_cant": "operation sequences are unbounded", "anchors": ["src/raft/my_raft_log_storage.cpp:MyRaftLogStorage::append_entries", "src/raft/my_raft_log_storage.cpp:MyRaftLogStorage::get_entry", "src/raft/my_raft_log_storage.cpp:MyRaftLogStorage::get_term"]}
{"id": "C15", "title": "The raft log survives a crash at any point", "statement": "If the process stops between any two storage writes and the log is reopened, the reopened log equals the log before or after the interrupted operation: acknowledged entries are all present, no hole, no entry from a truncated suffix reappears.", "quantifier": "every operation sequence and every crash point inside it", "why_tests_cant": "crash points times histories", "anchors": ["src/raft/my_raft_log_storage.cpp:MyRaftLogStorage::init", "src/raft/my_raft_log_storage.cpp:MyRaftLogStorage::truncate_prefix", "src/raft/my_raft_log_storage.cpp:MyRaftLogStorage::truncate_suffix"]}
{"id": "C16", "title": "Term lookup agrees with the entries", "statement": "The compressed in-memory term table answers, for every index in the log, the term of the entry stored there, after any sequence of appends and truncations, with either search strategy it uses.", "quantifier": "every sequence of operations with non-decreasing terms, every index", "why_tests_cant": "table shapes (run lengths, sizes on both sides of the linear/binary threshold) are unbounded", "anchors": ["include/raft/index_term_map.h:IndexTermMap::get_term", "include/raft/index_term_map.h:IndexTermMap::truncate_prefix"]}
{"id": "C17", "title": "Raft log space reclamation never removes a live entry", "statement": "Background compaction of the raft log store removes only entries below the first index of their region (and below the point a running split still needs); entries of other regions and metadata survive.", "quantifier": "every stored key, every region state", "why_tests_cant": "all keys and states; compaction runs asynchronously", "anchors": ["include/raft/raft_log_compaction_filter.h:RaftLogCompactionFilter::Filter"]}
{"id": "C18", "title": "The LRU cache is bounded and keeps the most recently used entries", "statement": "After any sequence of add/find/del the cache returns for a key the value last added for it or nothing, never holds more than its configured number of entries, and evicts only the least recently used ones.", "quantifier": "every operation sequence, every capacity", "why_tests_cant": "operation sequences are unbounded", "anchors": ["include/common/lru_cache.hpp:Cache::add", "include/common/lru_cache.hpp:Cache::find"]}
{"id": "C19", "title": "Date conversion is exact for every day", "statement": "Converting a timestamp to a calendar date and back gives the same timestamp, for every second, and the calendar date is the Gregorian date of that day.", "quantifier": "all integers as second counts (all eras)", "why_tests_cant": "leap rules over 400-year eras and negative days; unbounded range", "anchors": ["src/common/datetime.cpp:localtime_fixed_r", "src/common/datetime.cpp:mktime_fixed_r"]}
{"id": "C20", "title": "DATETIME values sort chronologically and unpack to the stored fields", "statement": "The 64-bit DATETIME representation orders values chronologically and each field (year .. microsecond) is recovered exactly; converting a DATETIME to TIMESTAMP and back preserves it to the second in the supported range.", "quantifier": "every valid (year, month, day, hour, minute, second, microsecond)", "why_tests_cant": "about 10^18 combinations", "anchors": ["src/common/datetime.cpp:str_to_datetime", "src/common/datetime.cpp:datetime_to_str", "src/common/datetime.cpp:datetime_to_timestamp"]}
{"id": "C21", "title": "TIME values convert to seconds and back without loss", "statement": "The packed TIME representation, including negative values, converts to seconds and back to the same value, and orders as the durations do.", "quantifier": "every valid TIME value, negative and positive", "why_tests_cant": "sign handling interacts with each field", "anchors": ["src/common/datetime.cpp:time_to_seconds", "src/common/datetime.cpp:seconds_to_time"]}
{"id": "C22", "title": "DATE_ADD / DATE_SUB of months moves exactly that many months", "statement": "Adding n months moves the (year, month) pair by exactly n months, clamps the day to the target month's length, and leaves the time of day unchanged.", "quantifier": "every date and every n, positive or negative", "why_tests_cant": "wrap-around at year boundaries for every n", "anchors": ["src/common/datetime.cpp:date_add_interval"]}
{"id": "C23", "title": "LIKE matches exactly the SQL pattern language", "statement": "s LIKE p holds exactly when s is generated by p: % stands for any sequence, _ for any one character, an escaped character for itself, any other character for itself.", "quantifier": "every string and every pattern, for byte and multi-byte character sets", "why_tests_cant": "both are unbounded; back-tracking errors need special self-overlapping patterns", "anchors": ["include/expr/predicate.h:LikePredicate::like", "src/expr/predicate.cpp:LikePredicate::like_one"]}
{"id": "C24", "title": "Index ranges derived from LIKE do not lose rows", "statement": "When a LIKE pattern is served by an index prefix scan, every string that matches the pattern starts with the prefix used for the scan, and when it is treated as an equality the only match is that string.", "quantifier": "every pattern and every matching string", "why_tests_cant": "unbounded", "anchors": ["src/expr/predicate.cpp:LikePredicate::hit_index"]}
{"id": "C25", "title": "AND / OR / NOT / XOR follow SQL three-valued logic", "statement": "Boolean expressions over TRUE, FALSE and NULL evaluate as SQL prescribes, for every nesting; in particular a WHERE filter keeps a row only when its condition is TRUE.", "quantifier": "every expression tree and every assignment", "why_tests_cant": "expression trees are unbounded", "anchors": ["include/expr/predicate.h:AndPredicate", "include/expr/predicate.h:OrPredicate", "include/expr/predicate.h:NotPredicate"]}
{"id": "C26", "title": "ORDER BY ... LIMIT n returns the first n rows of the stable sort", "statement": "The bounded-memory top-n sorter returns exactly the first n rows of the full sort of its input by the ordering keys, ties in input order.", "quantifier": "every input list, every n >= 1, every ordering", "why_tests_cant": "inputs unbounded; heap errors show on particular permutations", "anchors": ["src/runtime/topn_sorter.cpp:TopNSorter::add_batch", "src/runtime/topn_sorter.cpp:TopNSorter::get_next"]}
{"id": "C27", "title": "Merging sorted region results yields the globally sorted result", "statement": "Merging per-region sorted batches returns every input row exactly once, in sorted order.", "quantifier": "every number of batches, every batch content", "why_tests_cant": "unbounded; heap maintenance errors need special shapes", "anchors": ["src/runtime/sorter.cpp:Sorter::merge_sort", "src/runtime/sorter.cpp:Sorter::get_next"]}
{"id": "C28", "title": "MySQL length-encoded integers and strings are unambiguous", "statement": "Every length-encoded integer and string written to a client packet is decoded by a conforming client to the same value, using exactly the written bytes, with NULL distinct from every string.", "quantifier": "every 64-bit integer, every byte string, every following data", "why_tests_cant": "boundary values 250/251, 2^16, 2^24 and arbitrary continuations", "anchors": ["src/protocol/data_buffer.cpp:DataBuffer::byte_array_append_length_coded_binary", "src/protocol/data_buffer.cpp:DataBuffer::pack_length_coded_string"]}
{"id": "C29", "title": "A full-text posting list reads as new-over-old without deleted entries", "statement": "Iterating a term's posting list returns, in ascending key order and once each, the keys of the recent and the merged lists, the recent entry winning when both hold a key, and no deleted entry; seeking to a key returns the first such entry not below it.", "quantifier": "every pair of sorted lists, every interleaving of next and seek calls", "why_tests_cant": "list contents and call sequences are unbounded", "anchors": ["include/reverse/reverse_interface.hpp:CommRindexNodeParser::next", "include/reverse/reverse_interface.hpp:CommRindexNodeParser::advance", "include/reverse/boolean_engine/boolean_executor.hpp:TermBooleanExecutor::next"]}
{"id": "C30", "title": "Full-text AND / OR return intersection / union", "statement": "A boolean full-text query returns exactly the documents in the intersection (AND) or union (OR) of the sub-queries' documents, ascending, without duplicates.", "quantifier": "every number and content of sub-query result lists", "why_tests_cant": "unbounded; leap-frog and heap errors need special list shapes", "anchors": ["src/reverse/boolean_executor.cpp:AndBooleanExecutor::find_next", "src/reverse/boolean_executor.cpp:OrBooleanExecutor::find_next"]}
{"id": "C31", "title": "Every key is routed to the region that owns it", "statement": "When the known regions of a table partition the key space, a point write is sent to the one region whose [start, end) contains the key, and a range read is sent to every region whose range intersects it.", "quantifier": "every partition of the key space into regions, every key and range", "why_tests_cant": "keys and region layouts are unbounded", "anchors": ["src/common/schema_factory.cpp:SchemaFactory::get_region_by_key"]}
{"id": "C32", "title": "Learning about splits and merges keeps the routing table gap-free", "statement": "Applying any heartbeat about split or merged regions to a routing table that covers the key space without gap or overlap leaves a table with the same property.", "quantifier": "every routing table and every update batch", "why_tests_cant": "update batches arrive in any combination and order", "anchors": ["src/common/schema_factory.cpp:SchemaFactory::update_regions_table"]}
{"id": "C33", "title": "A distributed transaction commits everywhere or nowhere", "statement": "For a transaction spanning several regions, it never happens that one region applies COMMIT and another applies ROLLBACK of its prepared part, whatever the order of messages, retries, timeouts, coordinator failure and recovery queries to the primary region.", "quantifier": "every number of regions, every schedule of messages and failures", "why_tests_cant": "the schedules that break atomicity involve particular races of timeout and recovery", "anchors": ["src/exec/fetcher_store.cpp:FetcherStore::run_not_set_state", "src/store/region.cpp:Region::exec_txn_query_primary_region", "src/engine/transaction_pool.cpp:TransactionPool::txn_query_primary_region"]}
{"id": "C34", "title": "Committed writes are applied exactly once across restarts", "statement": "If a store stops at any point while applying the replicated log and restarts, replaying the log leaves the same table data as an execution without the stop: no write is lost and none is applied twice.", "quantifier": "every log, every crash point between two storage writes, any number of crashes", "why_tests_cant": "crash points times histories", "anchors": ["src/store/region.cpp:Region::do_apply", "src/store/region.cpp:Region::on_snapshot_load_for_restart", "src/store/meta_writer.cpp:MetaWriter::write_meta_after_commit"]}
{"id": "C35", "title": "A failed statement leaves no trace in its transaction", "statement": "Rolling back one statement of a multi-statement transaction restores exactly the uncommitted state (and the row-count delta) before that statement.", "quantifier": "every sequence of statements and rollbacks", "why_tests_cant": "nesting and order of savepoints are unbounded", "anchors": ["src/engine/transaction.cpp:Transaction::set_save_point", "src/engine/transaction.cpp:Transaction::rollback_to_point"]}
{"id": "C36", "title": "Post-split garbage collection removes only rows that left the region", "statement": "Background compaction after a split removes from a region only keys outside the region's range, so no read of the region changes.", "quantifier": "every stored key, every region range", "why_tests_cant": "all keys; asynchronous", "anchors": ["include/engine/split_compaction_filter.h:SplitCompactionFilter::Filter", "src/engine/transaction.cpp:Transaction::fits_region_range"]}
{"id": "C37", "title": "Incremental aggregates do not depend on how the store batches merges", "statement": "The value read for a pre-aggregated (OLAP) row is the same whether deltas are combined eagerly, lazily or in any grouping.", "quantifier": "every base row, every list of deltas, every grouping", "why_tests_cant": "grouping is chosen by the storage engine at run time", "anchors": ["src/engine/rocksdb_merge_operator.cpp:OLAPMergeOperator::FullMergeV2", "src/engine/rocksdb_merge_operator.cpp:OLAPMergeOperator::PartialMerge"]}
{"id": "C38", "title": "Values of the same type are totally ordered by the comparison used for sorting and joining", "statement": "Comparison of two SQL values of the same type is reflexive, antisymmetric and transitive with NULL first; comparing an integer with an unsigned integer agrees with their numeric order.", "quantifier": "every triple of values", "why_tests_cant": "order axioms quantify over triples; mixed-sign corners", "anchors": ["include/common/expr_value.h:ExprValue::compare", "include/common/expr_value.h:ExprValue::compare_diff_type"]}
{"id": "C39", "title": "Integer arithmetic never yields a wrong value silently", "statement": "Integer +, -, *, /, % on SQL values yield the mathematical result when it fits the result type, NULL for NULL operands and for division by zero.", "quantifier": "every pair of operands", "why_tests_cant": "2^128 operand pairs", "anchors": ["src/expr/operators.cpp:BINARY_OP_ALL_TYPES_FN", "src/expr/operators.cpp:BINARY_OP_ALL_TYPES_ZERO_FN"]}
{"id": "C40", "title": "Partitions: each row belongs to exactly one partition, and reads do not miss it", "statement": "For a RANGE- or HASH-partitioned table, every row is assigned to exactly one existing partition, and for RANGE it is the one whose bounds contain the partition column value, or the row is refused if there is none. After any sequence of CREATE TABLE, ADD, DROP and MODIFY PARTITION the partitions one user works with never overlap and ids are never reused. Partition pruning by a WHERE clause keeps every partition that can hold a matching row.", "quantifier": "every partition definition, every sequence of partition DDL, every user type, every column value and every condition on the partition column", "why_tests_cant": "values unbounded; boundary values", "anchors": ["src/common/schema_factory.cpp:RangePartition::init", "include/common/schema_factory.h:RangePartition::calc_partition", "include/common/schema_factory.h:calc_partitions", "src/common/schema_factory.cpp:HashPartition::calc_partition", "src/meta_server/meta_util.cpp:check_partition_overlapped", "src/meta_server/table_manager.cpp:add_partition", "src/meta_server/table_manager.cpp:drop_partition_internal", "src/meta_server/schema_manager.cpp:pre_process_for_partition", "src/physical_plan/index_selector.cpp:select_partition"]}
{"id": "C41", "title": "LIMIT offset, count returns exactly the requested page", "statement": "A query with LIMIT offset, count returns the rows after the first offset rows of its input, at most count of them, in input order, however the input arrives in batches; then it reports the end.", "quantifier": "every batching of every input, every offset, every count", "why_tests_cant": "batch boundaries can fall anywhere relative to offset and offset+count", "anchors": ["src/exec/limit_node.cpp:LimitNode::get_next", "include/runtime/row_batch.h:RowBatch::skip_rows"]}
{"id": "C45", "title": "Result rows of prepared statements and large packets arrive intact", "statement": "For every row of a result sent in the binary protocol a conforming client decodes exactly the stored values (integers, floats, text, dates, times, NULLs); rows of 16 MB and more are cut into packets that reassemble to the row, and the packet sequence numbers are consecutive.", "quantifier": "every row, every column type modelled, every body size up to the buffer limit, every following data", "why_tests_cant": "packet cuts happen at 2^24-1 bytes and bitmap layout depends on the number of columns; client decoding is not part of the repository", "anchors": ["src/exec/packet_node.cpp:PacketNode::pack_binary_row", "src/exec/packet_node.cpp:PacketNode::pack_text_row", "src/protocol/data_buffer.cpp:DataBuffer::append_binary_value", "src/protocol/data_buffer.cpp:DataBuffer::network_queue_send_append"]}
{"id": "C46", "title": "A request is received the same however the network cuts it", "statement": "A client request of any size, cut into packets by the protocol and delivered by the network in any pieces with any pauses, reaches the server as exactly the bytes of the request, and no byte of the following request is consumed.", "quantifier": "every request, every way of cutting the byte stream into reads, every following data", "why_tests_cant": "the number of ways to cut a stream is unbounded; tests use whole reads", "anchors": ["src/protocol/state_machine.cpp:StateMachine::_read_packet", "src/protocol/mysql_wrapper.cpp:MysqlWrapper::real_read"]}
{"id": "C47", "title": "Prepared statements run with the values the client sent", "statement": "For every list of parameters of the supported types, with types sent in this or an earlier execution, the statement is executed with exactly the values encoded by the client; no packet makes the server read outside the packet.", "quantifier": "every parameter list, every packet, every buffer content behind the packet", "why_tests_cant": "hostile and truncated packets; dependence on stale buffer contents", "anchors": ["src/protocol/state_machine.cpp:StateMachine::_query_read_stmt_execute", "src/protocol/mysql_wrapper.cpp:MysqlWrapper::decode_binary_protocol_value"]}
{"id": "C48", "title": "Login accepts exactly the right response and never reads outside the packet", "statement": "Whatever bytes a client sends as its login packet, the server reads nothing outside it and accepts only a known user, with an allowed address, whose 20-byte response equals the expected one; a well-formed login of such a user is accepted.", "quantifier": "every login packet, every user table", "why_tests_cant": "hostile packets", "anchors": ["src/protocol/state_machine.cpp:StateMachine::_auth_read"]}
{"id": "C49", "title": "A rollup row is the sum over the present base rows", "statement": "After any history of inserts and deletes of rows, every summed column of a rollup index entry equals the sum of that column over the rows currently present with that rollup key.", "quantifier": "every history of inserts and deletes, every schema of summed columns", "why_tests_cant": "histories and values are unbounded; deletes are encoded as negative deltas merged later by the storage engine", "anchors": ["src/common/table_record.cpp:TableRecord::encode_value_for_rollup", "src/engine/rocksdb_merge_operator.cpp:OLAPMergeOperator::FullMergeV2", "src/engine/transaction.cpp:Transaction::put_secondary"]}
{"id": "C50", "title": "Merging a full-text index in the background changes no answer", "statement": "Whatever the background thread has merged, moved, trimmed after a split or left half done by a failure or restart, a full-text query returns, for the keys the region holds, exactly the documents that match it in the writes that have become visible; after a complete pass every write committed before the pass is visible.", "quantifier": "every history of writes, passes with any interleaving of writes, splits, failures and restarts; every query", "why_tests_cant": "the merge thread runs for the whole life of a region and can be interrupted anywhere; whether a deleted document can come back depends on the whole history", "anchors": ["include/reverse/reverse_index.hpp:ReverseIndex::reverse_merge_func", "include/reverse/reverse_index.hpp:ReverseIndex::_reverse_merge_to_second_level", "include/reverse/reverse_index.hpp:ReverseIndex::get_reverse_list_two", "include/reverse/reverse_common.hpp:level_merge", "src/store/region.cpp:Region::reverse_merge"]}
{"id": "C51", "title": "A full-text query that runs during merging sees every document as of some moment", "statement": "A full-text query that reads its lists while writes and merging go on answers, for every document and term, as of one moment between its two reads of that term: nothing visible all the time is missed, nothing absent all the time is returned.", "quantifier": "every history and every pair of moments at which the lists of each term are read", "why_tests_cant": "schedules of readers, writers and the merge thread are unbounded", "anchors": ["include/reverse/reverse_index.hpp:ReverseIndex::get_reverse_list_two", "include/reverse/reverse_index.hpp:ReverseIndex::_get_level_reverse_list"]}
{"id": "C42", "title": "Simplifying a WHERE condition keeps its rows", "statement": "When several conditions of a WHERE clause restrict the same column, the statement returns exactly the rows for which every condition as written is TRUE; if it is answered empty without reading the table, no row satisfies the conditions.", "quantifier": "every list of conditions (comparisons, IN lists, row comparisons, row IN lists, others), every constant, every row", "why_tests_cant": "the rewriting merges conditions pairwise over any number of conditions and columns; one wrong combination silently changes results", "anchors": ["src/exec/filter_node.cpp:FilterNode::expr_optimize", "src/exec/filter_node.cpp:predicate_cut", "src/exec/filter_node.cpp:SlotPredicate"]}
{"id": "C43", "title": "Turning ORs of equalities into an IN list keeps its rows", "statement": "A condition that is an OR of equalities on one column, or an OR of ANDs of equalities on the same columns, selects the same rows whether or not it is executed as an IN list.", "quantifier": "every number of alternatives and columns, every constant, every row", "why_tests_cant": "alternatives and constants are unbounded and only particular combinations collide", "anchors": ["src/expr/expr_node.cpp:ExprNode::or_node_optimize", "src/expr/expr_node.cpp:ExprNode::change_or_node_to_in", "src/expr/predicate.cpp:InPredicate::open"]}
{"id": "C44", "title": "Row comparisons follow SQL", "statement": "(a, b, ...) compared with a row of constants, or tested against a list of rows, selects the rows for which the SQL row comparison is TRUE.", "quantifier": "every width, every column type, every operator, every value including NULL", "why_tests_cant": "widths and values are unbounded; the interesting cases are NULLs and keys that collide", "anchors": ["include/expr/scalar_fn_call.h:ScalarFnCall::multi_eq_value", "src/expr/predicate.cpp:InPredicate::row_expr_open", "src/expr/predicate.cpp:InPredicate::make_key"]}
{"id": "C52", "title": "INSERT, REPLACE, UPDATE and DELETE change the rows as SQL says", "statement": "A successful INSERT adds exactly the given rows and fails exactly when a row has the primary key or the UNIQUE values of another; INSERT IGNORE leaves such a row out; REPLACE removes every row it collides with and then adds the new one; INSERT ... ON DUPLICATE KEY UPDATE changes the row it collides with first; UPDATE changes the selected rows and fails exactly when the new row would collide with another; DELETE removes the selected rows. The number of affected rows is what SQL says, and rows not named by the statement are untouched.", "quantifier": "every table with a primary key of any width and any list of KEY and UNIQUE indexes in any state, row or column storage, with and without TTL; every content reached so far; every list of rows, SET clauses and keys", "why_tests_cant": "The effect depends on the interplay of primary key, every UNIQUE index, expiry of rows, region bounds and earlier rows of the same statement; tests visit a handful of combinations.", "anchors": ["src/exec/dml_node.cpp:insert_row,update_row,delete_row,remove_row,init_schema_info", "src/exec/insert_node.cpp:open", "src/exec/update_node.cpp:open", "src/exec/delete_node.cpp:open", "src/engine/transaction.cpp:get_update_primary,get_update_secondary,put_primary,put_secondary,remove"]}
{"id": "C53", "title": "Indexes always agree with the rows", "statement": "After any history of statements, passing time and region cuts, every secondary index that is being written contains a record for every row, and no index contains a live record of a row that does not exist or has other values; a lookup through an index finds exactly the rows a full scan would.", "quantifier": "every schema, every history of INSERT, REPLACE, INSERT IGNORE, ON DUPLICATE KEY UPDATE, UPDATE and DELETE, any passage of time, any shrinking of the region", "why_tests_cant": "An index that has drifted from its rows shows only in later queries; it needs an invariant over all histories, not a check after one.", "anchors": ["src/exec/dml_node.cpp:insert_row,remove_row,update_row", "src/engine/transaction.cpp:put_secondary,remove,fits_region_range"]}
{"id": "C54", "title": "A UNIQUE index admits no duplicates", "statement": "At no time are there two rows with the same values in the columns of a UNIQUE index (or in the primary key); rows with NULL in such a column are not duplicates of each other.", "quantifier": "every schema and every history of statements, time and cuts", "why_tests_cant": "A duplicate can enter through any of the writing paths and any order of them.", "anchors": ["src/exec/dml_node.cpp:insert_row", "src/engine/transaction.cpp:get_update_secondary", "src/common/table_record.cpp:encode_key"]}
{"id": "C55", "title": "An index added while the table is in use ends up complete and correct", "statement": "When ALTER TABLE ADD INDEX ends, the new index agrees with the rows, whatever statements ran while it was being filled; ADD UNIQUE INDEX fails exactly when there are two rows with the same values.", "quantifier": "every schema, every interleaving of statements with the filling of the index row by row", "why_tests_cant": "The interleavings of the filling with statements on the same rows are unbounded.", "anchors": ["src/exec/rocksdb_scan_node.cpp:index_ddl_work,process_ddl_work", "src/exec/dml_node.cpp:insert_row,remove_row"]}
{"id": "C56", "title": "A statement that reports an error has changed nothing", "statement": "An UPDATE or DELETE that fails leaves the table as it was, however many rows it covers; one that succeeds has changed all of them.", "quantifier": "every statement, every number of rows and every division into batches", "why_tests_cant": "The partial effect depends on the batch in which the error occurs.", "anchors": ["src/exec/update_node.cpp:open", "src/exec/delete_node.cpp:open"]}
{"id": "C57", "title": "The row counter follows the rows", "statement": "The number of rows a statement reports to the region as added or removed is the change of the number of stored rows.", "quantifier": "every INSERT, REPLACE, INSERT IGNORE, ON DUPLICATE KEY UPDATE and DELETE on every table content, expired rows included", "why_tests_cant": "Each path of the statements adjusts the counter on its own; the counter steers splits and merges and is never recomputed.", "anchors": ["src/exec/dml_node.cpp:insert_row,remove_row", "src/exec/insert_node.cpp:open", "src/exec/delete_node.cpp:open"]}
{"id": "C58", "title": "Reading through an index returns exactly the selected rows", "statement": "A SELECT (or the read part of UPDATE and DELETE) whose WHERE clause is turned into ranges of an index returns, from every region, exactly the rows of that region that meet all its conditions, each once; the rows do not depend on which index of the table is used.", "quantifier": "every index (primary, unique, ordinary) over columns of every type, every conjunction of comparisons, IN lists, row comparisons, row INs and LIKEs with other conditions, every table content, every region and both directions", "why_tests_cant": "The planner keeps one range per column, replaces it by weight, multiplies IN lists, drops the conditions it believes implied by the key range, and the storage re-interprets open and closed bounds as byte strings; every combination of conditions and columns takes another path.", "anchors": ["src/physical_plan/index_selector.cpp:hit_field_range,hit_row_field_range,index_selector", "src/exec/access_path.cpp:calc_normal,calc_index_range", "include/exec/access_path.h:insert_no_cut_condition", "src/exec/rocksdb_scan_node.cpp:get_next", "src/engine/table_iterator.cpp:open,get_next"]}
{"id": "C59", "title": "ORDER BY may be served by the index", "statement": "Where the planner drops the sorting of a query because the index already has the order and there is at most one range, the rows of a region come out in the order asked for (reversed when read backward).", "quantifier": "every index, every conjunction of conditions, every ORDER BY column list the planner accepts, every table content and region", "why_tests_cant": "Whether skipped columns are really constant depends on which conditions were turned into the range.", "anchors": ["src/exec/access_path.cpp:check_sort_use_index", "src/exec/rocksdb_scan_node.cpp:76-97", "src/exec/sort_node.cpp"]}
{"id": "C60", "title": "A range read returns exactly its keys", "statement": "The iterator over one key range of one region returns exactly the keys within the (open or closed, possibly partial) bounds and within the region, in order, forward and backward.", "quantifier": "every set of keys, every pair of bounds, open or closed, empty or the front part of keys, every region", "why_tests_cant": "The bounds are combined with the region's and padded with 0xff bytes; the cases where a bound is the front part of a key or of a region bound are easily missed.", "anchors": ["src/engine/table_iterator.cpp:Iterator::open,_fits_left_bound,_fits_right_bound", "include/engine/table_iterator.h"]}
{"id": "C61", "title": "Aggregates do not depend on the regions", "statement": "SELECT with GROUP BY and COUNT, SUM, AVG, MIN, MAX, GROUP_CONCAT, RB_*_AGG or MULTI_*_DISTINCT returns exactly one row per group with the value of each function over all rows of the group (one row for the whole table without GROUP BY, also when it is empty), however the rows are divided into regions and in whatever order the regions' partial results arrive.", "quantifier": "all tables (row lists), all divisions into regions, all arrival orders, all GROUP BY lists, all lists of calls", "why_tests_cant": "the number of divisions and arrival orders is unbounded; a test sees a few of them, and the partial results travel through several code paths (update, merge, finalize) per function", "anchors": ["src/exec/agg_node.cpp: AggNode::open, process_row_batch, get_next", "src/expr/agg_fn_call.cpp: initialize, update, merge, finalize", "src/logical_plan/select_planner.cpp: create_agg_node", "src/physical_plan/separate.cpp: separate_simple_plan"]}
{"id": "C62", "title": "GROUP BY compares values", "statement": "Two rows fall into the same group exactly when every GROUP BY expression is NULL on both or has equal values on both.", "quantifier": "all rows and all lists of GROUP BY expressions", "why_tests_cant": "equality of groups is equality of encoded byte strings; collisions between encodings of different values need particular values", "anchors": ["src/exec/exec_node.cpp: ExecNode::encode_exprs_key", "include/common/mut_table_key.h: MutTableKey::append_value"]}
{"id": "C63", "title": "DISTINCT aggregates and ordered GROUP_CONCAT", "statement": "In a query with DISTINCT aggregates or GROUP_CONCAT ... ORDER BY, a DISTINCT aggregate is taken over one row per different combination of its arguments, an ordered GROUP_CONCAT joins the texts in the given order, and all other aggregates of the query are still taken over all rows; COUNT(DISTINCT e) is the number of different non-NULL values.", "quantifier": "all tables, divisions into regions, arrival orders, GROUP BY lists and lists of calls", "why_tests_cant": "the plan aggregates twice, over regions and over finer groups; wrong counts only show for particular combinations of duplicates across regions", "anchors": ["src/logical_plan/select_planner.cpp: create_agg_node, check_multi_distinct", "src/exec/agg_node.cpp: AggNode", "src/expr/agg_fn_call.cpp: update, merge, finalize"]}
{"id": "C64", "title": "Sets of DISTINCT values survive the network", "statement": "The set of values a region sends for a multi-column COUNT/SUM DISTINCT is exactly the set the frontend reads.", "quantifier": "all non-empty sets of values of every column type, up to the 2 GB limit of the message", "why_tests_cant": "binary format without length checks; every value and length must round trip", "anchors": ["src/expr/agg_fn_call.cpp: multi_distinct_serialize, multi_distinct_unserialize"]}
{"id": "C65", "title": "Joins return the rows of the SQL join", "statement": "INNER, LEFT and RIGHT JOIN return each pair of rows for which the ON clause is TRUE exactly once, and LEFT and RIGHT JOIN each row of the preserved side without a partner exactly once with NULLs, whether the join is done with a hash table or with nested loops, in whatever batches the inner rows arrive and the result is read.", "quantifier": "all row lists on both sides, all ON clauses, all divisions of the inner rows into batches, all sequences of batch capacities", "why_tests_cant": "the iterators suspend and resume at every row; which position matters depends on the batch sizes, the number of matches and the values, NULLs among them", "anchors": ["src/exec/joiner.cpp: strip_out_equal_slots, construct_in_condition, encode_hash_key, construct_result_batch", "src/exec/join_node.cpp: open, hash_join, nested_loop_join, get_next_for_hash_inner_join, get_next_for_hash_outer_join, get_next_for_nested_loop_join"]}
{"id": "C66", "title": "LIMIT over a join", "statement": "SELECT ... FROM a JOIN b ON ... LIMIT k returns k rows of the join, or all of them if there are fewer, also when the limit is passed down to the sides of the join.", "quantifier": "all limits, all row lists, all ON clauses, all batch capacities, all choices of the rows a limited side returns", "why_tests_cant": "the limit interacts with the suspension of the iterators and with rows without partner; a test covers a few sizes", "anchors": ["src/physical_plan/limit_calc.cpp: _analyze_limit", "src/exec/join_node.cpp: get_next_for_hash_inner_join, get_next_for_hash_outer_join, get_next_for_nested_loop_join"]}
{"id": "C67", "title": "Pushing conditions below joins keeps the result", "statement": "The rows of a query over joined tables do not depend on the planner's moving WHERE and ON conditions towards the tables and turning LEFT, RIGHT and FULL JOINs into stricter ones: the rewritten plan has exactly the rows, with multiplicity, that the query as written has.", "quantifier": "all trees of INNER, LEFT, RIGHT and FULL JOINs with filters, all WHERE and ON conditions, all contents of the tables", "why_tests_cant": "the rewriting depends on the shape of the join tree and of each condition, and a wrong step only shows on data with NULLs or rows without partner", "anchors": ["src/exec/join_node.cpp: predicate_pushdown, convert_to_inner_join", "src/exec/filter_node.cpp: predicate_pushdown", "src/expr/expr_node.cpp: contains_null_function", "include/exec/joiner.h: expr_in_tuple_ids"]}
{"id": "C68", "title": "Window functions have their SQL values", "statement": "For every row of a query, a window function (COUNT, SUM, AVG, MIN, MAX, ROW_NUMBER, RANK, DENSE_RANK, PERCENT_RANK, CUME_DIST, NTILE, LEAD, LAG, FIRST_VALUE, LAST_VALUE, NTH_VALUE) has the value SQL defines: over the rows of its ROWS or RANGE frame (by default the rows up to the current row and its peers, all rows without ORDER BY), or from its place in the partition.", "quantifier": "all sizes and contents of a partition, all functions, ORDER BY lists and frame clauses the planner accepts", "why_tests_cant": "running values depend on all earlier rows of the partition, on ties and on frame borders before the first and behind the last row", "anchors": ["src/expr/window_fn_call.cpp: call, get_result, frame_reset, partition_reset", "src/exec/window_node.cpp: NonFrameWindowProcessor, RowFrameWindowProcessor, RangeFrameWindowProcessor", "src/logical_plan/logical_planner.cpp: create_window_spec, check_window_expr_valid"]}
{"id": "C69", "title": "Windows do not depend on batches and LIMIT", "statement": "A query with window functions returns each input row once, partition by partition, and its values are those over the whole partition however the rows arrive in batches and however few the caller takes at a time; with LIMIT n it returns the first n of these rows.", "quantifier": "all inputs sorted by partition and ORDER BY, all divisions into batches, all sequences of output capacities, all limits", "why_tests_cant": "partitions may straddle any number of batches and outputs may stop anywhere inside a partition", "anchors": ["src/exec/window_node.cpp: get_next, split_into_partitions, process_one_partition"]}
{"id": "C70", "title": "Functions over the same window get their own frames", "statement": "Several window functions with the same OVER clause in one SELECT each return what they would return alone, in any order of the select list.", "quantifier": "all lists of functions over one OVER clause, all partitions", "why_tests_cant": "functions with and without frames are put into one node, and the result depends on which comes first", "anchors": ["src/logical_plan/select_planner.cpp: merge_window_node", "src/logical_plan/logical_planner.cpp: create_window_spec"]}
{"id": "C71", "title": "A table and its global indexes agree", "statement": "After any sequence of INSERT, INSERT IGNORE, REPLACE, INSERT .. ON DUPLICATE KEY UPDATE, UPDATE and DELETE on a table with global indexes, every row has its record in every global index, every record of a global index belongs to a row with these values, and no two rows have the same values in the columns of a UNIQUE global index.", "quantifier": "all schemas with any number of global indexes, all sequences of statements with any rows, keys and SET expressions, succeeding or failing", "why_tests_cant": "rows and index records live in different regions and are written by different commands computed from what other commands returned", "anchors": ["src/exec/insert_manager_node.cpp", "src/exec/update_manager_node.cpp", "src/exec/delete_manager_node.cpp", "src/exec/lock_primary_node.cpp", "src/exec/lock_secondary_node.cpp"]}
{"id": "C72", "title": "INSERT, REPLACE, UPDATE and DELETE of a table with global indexes do what SQL says", "statement": "On a table with global indexes INSERT adds its rows or fails if one has a key of a stored row or of another row of the statement; REPLACE adds its rows, later ones taking the place of earlier ones, after removing the rows with one of their keys; UPDATE replaces the chosen rows by what SET makes of them, all at once, and fails exactly if two rows would have the same key; DELETE removes the chosen rows. The number of affected rows is that of SQL.", "quantifier": "all table contents that agree with their indexes, all lists of rows or keys, all SET expressions", "why_tests_cant": "which rows must be read, deleted and rewritten depends on clashes by every unique index among the rows of the statement and with the stored rows", "anchors": ["src/exec/insert_manager_node.cpp: basic_insert, insert_replace", "src/exec/update_manager_node.cpp: open", "src/exec/delete_manager_node.cpp: open_global_delete, process_binlog", "src/exec/lock_primary_node.cpp: open", "src/exec/lock_secondary_node.cpp: open"]}
{"id": "C73", "title": "INSERT IGNORE and ON DUPLICATE KEY UPDATE of a table with global indexes do what SQL says", "statement": "On a table with global indexes INSERT IGNORE adds each row unless it has a key of a row in the table or of a row it added before, and INSERT .. ON DUPLICATE KEY UPDATE takes the rows in order: each is added, or, if it has a key of a row in the table, updates the first such row; a statement of many rows does what its rows do one by one.", "quantifier": "all table contents that agree with their indexes, all lists of rows, all SET expressions", "why_tests_cant": "rows of one statement can clash with each other and with the same stored row through different indexes", "anchors": ["src/exec/insert_manager_node.cpp: insert_ignore, insert_on_dup_key_update, get_record_from_store, reverse_main_table", "src/exec/lock_primary_node.cpp: put_row", "src/exec/lock_secondary_node.cpp: put_global_index"]}
{"id": "C74", "title": "Predicates with subqueries that do not refer to the outer query have their SQL value", "statement": "x IN (subquery), x NOT IN (subquery), [NOT] EXISTS (subquery), x op (subquery), x op ANY (subquery) and x op ALL (subquery) let a row of the outer query pass exactly if SQL's three-valued definition over the rows of the subquery is TRUE, and a subquery with several rows used as a value is an error.", "quantifier": "all values on the left, NULL included; all lists of rows of the subquery, with NULLs, without rows, with or without ORDER BY and LIMIT; all six comparison operators", "why_tests_cant": "the subquery is rewritten (MIN, MAX, ORDER BY .. LIMIT 1) depending on its form and the operator, and its rows become literals of another expression", "anchors": ["src/logical_plan/logical_planner.cpp: handle_in_subquery, handle_scalar_subquery, handle_compare_subquery, handle_exists_subquery, create_common_subquery_expr", "src/logical_plan/select_planner.cpp: subquery_rewrite, minmax_remove", "include/common/expr_value.h: compare", "src/expr/predicate.cpp: InPredicate"]}
{"id": "C75", "title": "SELECT MIN(c) and MAX(c) give the extreme value", "statement": "SELECT MIN(c) or MAX(c) without GROUP BY gives one row, with the smallest or largest of the values that are not NULL, and NULL if there is none.", "quantifier": "all lists of values, all total orders", "why_tests_cant": "the statement is run without aggregation, as ORDER BY .. LIMIT 1, if c is a column", "anchors": ["src/logical_plan/select_planner.cpp: minmax_remove", "src/exec/select_manager_node.cpp: must_have_one"]}
{"id": "C76", "title": "Predicates with subqueries that refer to the outer query have their SQL value", "statement": "A row of the outer query passes x [NOT] IN (subquery), x op ANY/ALL (subquery), x op (subquery) or [NOT] EXISTS (subquery), where the subquery refers to columns of the row, exactly if the predicate over the rows the subquery has for it is TRUE in SQL; it comes out once. A subquery used as a value is an error exactly if it has several rows for some outer row, and in the SELECT list it is NULL if it has none.", "quantifier": "all rows of both sides, NULLs included; all conditions of the subquery on the outer row; all capacities of the batches the parent asks for; with and without LIMIT; all ways the rows of the inner side arrive", "why_tests_cant": "the subquery is taken apart and run by one of four algorithms (nested loop, hash map of either side, hash maps of slices of the outer side) that keep their place between batches", "anchors": ["src/exec/apply_node.cpp: decorrelate, open, hash_apply, nested_loop_apply, get_next_via_inner_hash_map, get_next_via_outer_hash_map, get_next_via_loop_outer_hash_map, get_next_for_nested_loop_join", "src/exec/joiner.cpp: construct_result_batch, runtime_filter, construct_hash_map", "src/logical_plan/logical_planner.cpp: construct_apply_node, handle_in_subquery, handle_scalar_subquery, handle_compare_subquery, handle_exists_subquery"]}
{"id": "C77", "title": "Aggregates over subqueries that refer to the outer query have their SQL value", "statement": "A row of the outer query passes x op (SELECT f(e) FROM t WHERE ..), where the WHERE clause refers to columns of the row, exactly if x op the value of f over the rows for which WHERE is TRUE; in the SELECT list every outer row comes once, with that value.", "quantifier": "all rows of both sides, all aggregate functions, all conditions of the subquery on the outer row, all operators, all capacities of the batches", "why_tests_cant": "the conditions on the outer row are taken out of the aggregation, which is computed once, grouped by the columns they set equal", "anchors": ["src/exec/apply_node.cpp: decorrelate, is_correlate_expr, extract_eq_inner_slots", "include/exec/agg_node.h: add_group_expr", "src/exec/joiner.cpp: _conditions_has_agg"]}
{"id": "C78", "title": "What a user may do follows from what was granted and revoked", "statement": "A statement on a table is let through exactly if the requests so far (creating the user, granting and revoking READ or WRITE access or the rights of GRANT and REVOKE, on a database, on a table or everywhere) leave the user with the access or the right the statement needs.", "quantifier": "all histories of administrative requests on all users, databases and tables, all statements", "why_tests_cant": "two generations of privileges are kept in the same lists, merged entry by entry on every request, and looked up in six maps", "anchors": ["src/meta_server/privilege_manager.cpp: create_user, add_privilege, drop_privilege, insert_table_privilege, delete_table_privilege, drop_invalid_privilege", "src/common/schema_factory.cpp: update_user", "include/session/user_info.h: allow_op, allow_op_v1, contain_privs"]}
{"id": "C79", "title": "Frontends follow the privileges kept by the meta server", "statement": "Once a heartbeat has brought the state of the meta server to a frontend, new logins use the current password and every connection of the user has the current privileges from its next refresh on, whatever late heartbeats come; at no moment does a connection have privileges the user never had; a dropped user cannot log in.", "quantifier": "all interleavings of administrative requests, heartbeats carrying any past state, logins and queries", "why_tests_cant": "the races between heartbeats, logins and objects shared by connections do not come up in a test", "anchors": ["src/common/schema_factory.cpp: update_user", "src/common/baikal_heartbeat.cpp", "src/protocol/state_machine.cpp: _auth_read_pre, _query_process", "src/meta_server/privilege_manager.cpp: process_baikal_heartbeat"]}
{"id": "C80", "title": "Only holders of a right grant it, and only holders of the right change a table", "statement": "GRANT and REVOKE are let through only for somebody who holds the rights they name and the right to grant; DROP TABLE, ALTER TABLE and index changes exactly for holders of the right for it.", "quantifier": "all histories of administrative requests, all sets of rights, all levels, both settings of the flag that makes DDL need a permission", "why_tests_cant": "the checks depend on which generation of privileges the user has been given before", "anchors": ["src/logical_plan/ddl_planner.cpp: plan, parse_priv", "include/session/user_info.h: allow_ddl, allow_op, contain_privs, acl_v2_is_valid"]}
{"id": "C81", "title": "Dropping a table takes the privileges on it away", "statement": "After DROP TABLE no user has a privilege that was given on the table; a table created later under its name is not open to anybody because of the old one.", "quantifier": "all histories of administrative requests, all orders in which the users are walked", "why_tests_cant": "the users are found through an index that every request has to keep in step with the privileges", "anchors": ["src/meta_server/table_manager.cpp: drop_privilege_for_table", "include/meta_server/privilege_manager.h: insert_db_tbl_user_map, delete_db_tbl_user_map", "src/meta_server/privilege_manager.cpp: insert_table_privilege, delete_table_privilege"]}
{"id": "C82", "title": "A derived table is the rows of its query", "statement": "A SELECT over a derived table or a UNION, nested in any way, returns what it would return if the subquery were run first and the conditions of the outer WHERE were applied to its rows, wherever the server evaluates them.", "quantifier": "all statements built from SELECT (WHERE, GROUP BY, aggregates, HAVING, window functions, ORDER BY, LIMIT), derived tables and UNION, all tables, all deterministic conditions", "why_tests_cant": "the conditions are moved below grouping, windows, sorting and into every branch of a UNION depending on the shape of the subquery", "anchors": ["src/exec/dual_scan_node.cpp: predicate_pushdown, can_expr_predicate_pushdown, can_predicate_pushdown, get_subquery_group_by_slots", "src/exec/union_node.cpp: predicate_pushdown", "src/expr/expr_node.cpp: replace_slot_ref_to_expr, get_all_subquery_tuple_slot_ids", "src/exec/filter_node.cpp: predicate_pushdown"]}
{"id": "C83", "title": "UNION and UNION ALL", "statement": "A UNION returns the rows of its SELECTs combined from left to right: UNION ALL keeps every row, UNION keeps one of equal rows; ORDER BY and LIMIT apply to the combined rows.", "quantifier": "all UNION statements of any number of SELECTs, all tables", "why_tests_cant": "one flag stands for all the UNION operators of a statement, and the answer depends on the order of the operators", "anchors": ["src/logical_plan/union_planner.cpp: gen_select_stmts_plan, create_common_plan_node, parse_dual_order_by", "include/sqlparser/sql_parse.y: UnionStmt", "src/exec/union_node.cpp: open"]}
{"id": "C84", "title": "SELECT DISTINCT returns each row once", "statement": "SELECT DISTINCT returns exactly the rows the SELECT without DISTINCT returns, each once.", "quantifier": "all SELECT statements, over tables and derived tables, all contents", "why_tests_cant": "DISTINCT is planned as GROUP BY below HAVING, windows and ORDER BY; whether that is the same depends on the other clauses", "anchors": ["src/logical_plan/select_planner.cpp: create_agg_node, plan", "src/exec/agg_node.cpp: process_row_batch"]}
{"id": "C85", "title": "The change stream of a region misses no commit and repeats none", "statement": "Reading the change stream of a region from a position returns, in increasing order of commit time and each once, exactly the transactions committed in the region after the position and up to the last time stamp returned, each with the changes it prewrote, and heartbeats; nothing that commits later can fall into the part already read, and when all transactions are decided the next heartbeat makes the stream readable up to it.", "quantifier": "all histories of time stamp draws, prewrites, commits, rollbacks and heartbeats in any arrival order and with repetitions, all replicas at any prefix of the log, all restarts, all positions and read sizes", "why_tests_cant": "the check point must be right for every interleaving of late prewrites, commits and heartbeats and after every restart; a test fixes one interleaving", "anchors": ["src/store/region_binlog.cpp:Region::binlog_update_map_when_apply", "src/store/region_binlog.cpp:Region::binlog_update_map_when_scan", "src/store/region_binlog.cpp:Region::binlog_update_check_point", "src/store/region_binlog.cpp:Region::apply_binlog", "src/store/region_binlog.cpp:Region::binlog_scan_when_restart", "src/store/region_binlog.cpp:Region::read_binlog", "src/store/region_binlog.cpp:BinlogReadMgr::get_binlog_value"]}
{"id": "C86", "title": "A subscriber to all regions gets every commit once and in commit order", "statement": "A subscriber that keeps asking for the changes after the position it was told last gets exactly the transactions committed in any of the regions after its first position and up to its current one, each once and all in order of commit time, whatever regions answer late, with how many binlogs and from which replica; it may move to any other position and the same holds from there; when all regions have an answer it moves forward.", "quantifier": "all sets of regions and their histories, all sequences of subscriptions and repositionings, all answers and failures of regions, all cache limits", "why_tests_cant": "the regions advance independently; the merge has to be right for every combination of how far each region has been read", "anchors": ["src/tools/baikal_capturer.cpp:Capturer::subscribe", "src/tools/baikal_capturer.cpp:Capturer::get_binlog_regions", "src/tools/baikal_capturer.cpp:Capturer::merge_binlog", "src/tools/baikal_capturer.cpp:Capturer::update_commit_ts", "src/tools/baikal_capturer.cpp:FetchBinlog::run", "src/tools/baikal_capturer.cpp:MergeBinlog::run", "src/tools/baikal_capturer.cpp:BinLogTransfer::run"]}
{"id": "C87", "title": "The approximate number of distinct values does not depend on how they were counted", "statement": "A sketch made by HLL_INIT, HLL_ADD, HLL_MERGE, HLL_ADD_AGG and HLL_MERGE_AGG, by partial aggregates of several stores and by storing and reading it back holds, for each of its 16384 places, the largest rank among the hashes of the values counted there. So two ways of counting the same set of values - in another order, in other batches, with repetitions, in the sparse, the dense or the raw encoding - show the same HLL_ESTIMATE, and no value counted is lost.", "quantifier": "all sequences and nestings of these functions, all values (by their 64 bit hashes), all sketches in all three encodings, every state of the cached estimate", "why_tests_cant": "the sparse encoding splits, replaces and joins runs, turns dense at a size and packs six bit numbers across bytes: 16384 places, runs of every length and every order of additions cannot be enumerated", "anchors": ["src/common/hll_common.cpp:hll_add", "src/common/hll_common.cpp:hll_sparse_set", "src/common/hll_common.cpp:hll_sparse_set_update", "src/common/hll_common.cpp:hll_sparse_to_dense", "src/common/hll_common.cpp:hll_raw_to_sparse", "src/common/hll_common.cpp:hll_merge", "src/common/hll_common.cpp:hll_merge_agg", "src/common/hll_common.cpp:hll_estimate", "include/common/hll_common.h", "src/expr/internal_functions.cpp:hll_merge", "src/expr/agg_fn_call.cpp:AggFnCall::update"]}
{"id": "C88", "title": "A row with a TTL is there until it expires and gone afterwards", "statement": "On a table with a TTL every point read, index read and scan at a time finds exactly the rows whose expiry has not passed, with the values written. A statement gives what it writes the time of the statement plus the TTL of its hint or else of the table; with the hint to keep, a changed row keeps its expiry. A row that has expired does not stand in the way of an INSERT with its key and is not changed by an UPDATE. When a table gets its TTL later, what it holds keeps its values and expires at the time announced then.", "quantifier": "all histories of writes and deletes, all values and keys, all expiry times, every moment of turning TTL on, every time of reading, all statements of every length and mode", "why_tests_cant": "whether the first eight bytes of a stored value are an expiry is guessed from their content: every row, key and time would have to be tried; tests do not wait for expiries, and errors show only for particular times and values", "anchors": ["src/engine/transaction.cpp:ttl_decode", "include/engine/transaction.h:ttl_encode", "src/engine/transaction.cpp:Transaction::put_kv_without_lock", "src/engine/transaction.cpp:Transaction::get_update_primary", "src/engine/table_iterator.cpp:TableIterator::get_next_internal", "src/engine/table_iterator.cpp:IndexIterator::get_next_internal", "src/common/tuple_record.cpp:TupleRecord::verification_fields", "src/exec/dml_node.cpp:DMLNode::init_schema_info", "src/exec/dml_node.cpp:DMLNode::insert_row", "src/exec/dml_node.cpp:DMLNode::update_row", "src/store/region.cpp:Region::update_ttl_info"]}
{"id": "C89", "title": "String functions return the bytes the SQL manual describes", "statement": "SUBSTRING, LEFT and RIGHT return the bytes at the places asked for; TRIM, LTRIM and RTRIM remove exactly the blanks at the ends; LPAD and RPAD return a string of the length asked for; INSERT replaces exactly the bytes named; REPLACE, SUBSTRING_INDEX and SPLIT_PART cut a string at the occurrences of another taken from the left without overlap; LOCATE and INSTR return the first occurrence; CONCAT, CONCAT_WS, REPEAT and REVERSE keep all bytes. A NULL argument makes the result NULL and an integer argument counts as its decimal text.", "quantifier": "all strings, patterns and replacements of every length and content, all 64 bit numbers, NULL and integer arguments", "why_tests_cant": "overlapping occurrences, replacements that contain the pattern, places at both ends, negative and very large numbers and NULLs combine without bound", "anchors": ["src/expr/internal_functions.cpp:substr", "src/expr/internal_functions.cpp:left", "src/expr/internal_functions.cpp:right", "src/expr/internal_functions.cpp:trim", "src/expr/internal_functions.cpp:lpad", "src/expr/internal_functions.cpp:rpad", "src/expr/internal_functions.cpp:insert", "src/expr/internal_functions.cpp:replace", "src/expr/internal_functions.cpp:locate", "src/expr/internal_functions.cpp:instr", "src/expr/internal_functions.cpp:substring_index", "src/expr/internal_functions.cpp:split_part", "src/expr/internal_functions.cpp:concat_ws"]}
{"id": "C90", "title": "A string function gives the same result for a column as for its rows", "statement": "A query returns the same value of a string function for a row whether the store evaluates the function row by row or for a whole column at once, whatever the other rows of the column are.", "quantifier": "all columns of every length, all strings, integers and NULLs in them, all constant arguments", "why_tests_cant": "which evaluator runs is decided by the planner and by statistics, and a wrong result can depend on the rows that happen to precede a row in its batch", "anchors": ["src/expr/arrow_string_function.cpp:arrow_substr", "src/expr/arrow_string_function.cpp:arrow_substring_index", "src/expr/arrow_string_function.cpp:SubstringIndex", "src/expr/arrow_string_function.cpp:arrow_replace", "src/expr/arrow_string_function.cpp:arrow_repeat", "src/expr/arrow_string_function.cpp:arrow_reverse", "src/expr/arrow_string_function.cpp:arrow_concat_ws", "src/expr/scalar_fn_call.cpp:ScalarFnCall::can_use_arrow_vector"]}
{"id": "C91", "title": "Functions that encode, count or list bytes lose and miscount nothing", "statement": "UNHEX(HEX(s)) is s for every byte string; HEX, BIN and OCT of an integer are its numeral in two's complement; CHAR_LENGTH is the number of characters of a UTF-8 text; FIND_IN_SET and FIELD return the first place of a string in a list and ELT the string at a place; MAKE_SET and EXPORT_SET list the bits of a number; the literal that QUOTE writes is read back as the same string; FORMAT groups the digits of a number by three. A NULL in a list hides no other element.", "quantifier": "all byte strings, all texts of Unicode characters, all 64 bit numbers, lists of every length", "why_tests_cant": "bytes above 127, characters of each encoded length, embedded separators, quotes and backslashes, negative numbers and NULLs combine without bound", "anchors": ["src/expr/internal_functions.cpp:hex", "src/expr/internal_functions.cpp:unhex", "src/expr/internal_functions.cpp:bin", "src/expr/internal_functions.cpp:oct", "src/expr/internal_functions.cpp:char_length", "src/expr/internal_functions.cpp:find_in_set", "src/expr/internal_functions.cpp:field", "src/expr/internal_functions.cpp:elt", "src/expr/internal_functions.cpp:make_set", "src/expr/internal_functions.cpp:export_set", "src/expr/internal_functions.cpp:quote", "src/expr/internal_functions.cpp:format"]}
