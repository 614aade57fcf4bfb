{
 "claims": [
  {
   "property": "C01",
   "status": "partial",
   "theorems": [
    "C01_read_your_write_exact_partial",
    "C01_read_your_write_iff_partial",
    "C01_read_your_write_refuted",
    "C01_read_your_write_partial"
   ],
   "note": "False of the code as stated (numeric text is normalised, an old deadline survives); proved: Get shows the text exactly if it is plain and the key's old deadline is not past."
  },
  {
   "property": "C02",
   "status": "proved",
   "theorems": [
    "C02_text_idempotent",
    "C02_text_of_floats",
    "C02_stored_text",
    "C02_text_of_non_numbers",
    "C02_text_of_integers"
   ],
   "note": "Exact stored text for every value."
  },
  {
   "property": "C03",
   "status": "proved",
   "theorems": [
    "C03_other_keys_undisturbed"
   ],
   "note": "For every history on other keys."
  },
  {
   "property": "C04",
   "status": "proved",
   "theorems": [
    "C04_expired_is_absent"
   ],
   "note": "All string readers, Type and MGet, for every ready state."
  },
  {
   "property": "C05",
   "status": "proved",
   "theorems": [
    "C05_never_early"
   ],
   "note": "Includes any interleaved calls on other keys and reads of the key."
  },
  {
   "property": "C06",
   "status": "partial",
   "theorems": [
    "C06_set_exact_partial",
    "C06_set_keeps_deadline_refuted",
    "C06_set_until_old_deadline_partial"
   ],
   "note": "False: Set keeps the old deadline. Proved: visible exactly up to the old deadline."
  },
  {
   "property": "C07",
   "status": "partial",
   "theorems": [
    "C07_set_after_expiry_always_lost_refuted",
    "C07_set_after_expiry_lost_refuted",
    "C07_set_after_noticed_expiry_partial"
   ],
   "note": "False: every Set after an unnoticed expiry is lost. Proved when the expiry was noticed first."
  },
  {
   "property": "C08",
   "status": "partial",
   "theorems": [
    "C08_setnx_exact_partial",
    "C08_setnx_iff_partial",
    "C08_setnx_ignores_expiry_refuted",
    "C08_setnx_partial"
   ],
   "note": "False exactly for keys stored and past their deadline: SetNX ignores expiry. Proved otherwise."
  },
  {
   "property": "C09",
   "status": "proved",
   "theorems": [
    "C09_getset"
   ],
   "note": "GetSet is Get followed by Set."
  },
  {
   "property": "C10",
   "status": "partial",
   "theorems": [
    "C10_append_iff_partial",
    "C10_append_refuted",
    "C10_append_partial",
    "C10_append_absent_partial"
   ],
   "note": "False when the concatenation is a number literal in another form; proved exactly otherwise."
  },
  {
   "property": "C11",
   "status": "partial",
   "theorems": [
    "C11_setrange_iff_partial",
    "C11_setrange_refuted",
    "C11_setrange_partial",
    "C11_setrange_absent_partial",
    "C11_setrange_crash_refuted"
   ],
   "note": "False when the spliced text is a number literal, and on a key that cannot be read above offset 2^48, where the process ends; otherwise splice and length proved for all, Get for plain text."
  },
  {
   "property": "C12",
   "status": "proved",
   "theorems": [
    "C12_setrange_negative",
    "C12_setrange_negative_returns"
   ],
   "note": "Error and no observable change."
  },
  {
   "property": "C13",
   "status": "proved",
   "theorems": [
    "C13_getrange",
    "C13_getrange_absent"
   ],
   "note": "All bounds."
  },
  {
   "property": "C14",
   "status": "proved",
   "theorems": [
    "C14_strlen"
   ],
   "note": "Exact relation, all states."
  },
  {
   "property": "C15",
   "status": "proved",
   "theorems": [
    "C15_set_makes_counter",
    "C15_incrby",
    "C15_incrby_absent"
   ],
   "note": "All int64 counters."
  },
  {
   "property": "C16",
   "status": "partial",
   "theorems": [
    "C16_overflow_refuted",
    "C16_wraps_partial",
    "C16_iff_partial"
   ],
   "note": "False: counters wrap silently. Proved: the exact wrapped result; it is the true sum exactly if that fits."
  },
  {
   "property": "C17",
   "status": "proved",
   "theorems": [
    "C17_counter_history",
    "C17_counter_history_interleaved"
   ],
   "note": "All histories of counting calls, also interleaved with calls on other keys."
  },
  {
   "property": "C18",
   "status": "proved",
   "theorems": [
    "C18_not_integer"
   ],
   "note": "Text, float and hash values."
  },
  {
   "property": "C19",
   "status": "partial",
   "theorems": [
    "C19_incrbyfloat_refuted",
    "C19_incrbyfloat_partial",
    "C19_incrbyfloat_set_partial"
   ],
   "note": "False for counters created by counting on an absent key (stored as int64). Proved for the other kinds."
  },
  {
   "property": "C20",
   "status": "partial",
   "theorems": [
    "C20_expired_counter_refuted",
    "C20_expired_counter_noticed_partial",
    "C20_expired_counter_always_refuted",
    "C20_exact_partial"
   ],
   "note": "False, always: counting ignores expiry. Proved when the expiry was noticed first. Exactly: the sum returned is shown by a later Get iff the old deadline is not past then."
  },
  {
   "property": "C21",
   "status": "proved",
   "theorems": [
    "C21_mset_any_order",
    "C21_mset_is_sets",
    "C21_mset_effect"
   ],
   "note": "All iteration orders; also equal to the sequence of Sets."
  },
  {
   "property": "C22",
   "status": "partial",
   "theorems": [
    "C22_exact_partial",
    "C22_mixed_refuted",
    "C22_msetnx_not_atomic_refuted",
    "C22_msetnx_partial"
   ],
   "note": "False for every mixture of stored and absent keys (a subset is stored). Proved when none or all of the keys are stored, and that it holds for these only (C22_exact_partial)."
  },
  {
   "property": "C23",
   "status": "proved",
   "theorems": [
    "C23_msetnx",
    "C23_msetnx_any_order"
   ],
   "note": "All iteration orders."
  },
  {
   "property": "C24",
   "status": "proved",
   "theorems": [
    "C24_mget",
    "C24_mget_effect"
   ],
   "note": "Also leaves the cache as the Gets would."
  },
  {
   "property": "C25",
   "status": "proved",
   "theorems": [
    "C25_del"
   ],
   "note": "All states."
  },
  {
   "property": "C26",
   "status": "partial",
   "theorems": [
    "C26_exists_expired_refuted",
    "C26_exists_partial",
    "C26_exists_counts_stored",
    "C26_iff_partial"
   ],
   "note": "False: expired keys are counted. Proved: the count is right exactly if no listed key is stored past its deadline."
  },
  {
   "property": "C27",
   "status": "partial",
   "theorems": [
    "C27_type_of_hash_refuted",
    "C27_type_partial",
    "C27_every_hash_refuted",
    "C27_exact_partial"
   ],
   "note": "False for every hash (reported as string). Proved: none exactly for unreadable keys. Exactly: right iff the key is not a readable hash."
  },
  {
   "property": "C28",
   "status": "proved",
   "theorems": [
    "C28_flush",
    "C28_flush_completes",
    "C28_flushed_absent"
   ],
   "note": "Indistinguishable from a fresh cache."
  },
  {
   "property": "C29",
   "status": "partial",
   "theorems": [
    "C29_sweep_refuted",
    "C29_sweep_empties_partial"
   ],
   "note": "False: the sweep removes every key. Proved: exactly that."
  },
  {
   "property": "C30",
   "status": "partial",
   "theorems": [
    "C30_ttl_overflow_refuted",
    "C30_ttl_partial",
    "C30_ttl_exact_partial",
    "C30_ttl_iff_partial"
   ],
   "note": "False exactly for durations that overflow int64 nanoseconds; proved for all others, with the deadline set otherwise."
  },
  {
   "property": "C31",
   "status": "partial",
   "theorems": [
    "C31_getset_wrong_type_refuted",
    "C31_wrong_type_partial",
    "C31_hash_is_wrong_type_partial",
    "C31_getset_exact",
    "C31_every_call_partial"
   ],
   "note": "False for GetSet on a hash. Proved for every other call, and that GetSet on a hash always replaces it."
  },
  {
   "property": "C32",
   "status": "proved",
   "theorems": [
    "C32_stored_kinds",
    "C32_wrong_type_iff_hash"
   ],
   "note": "Invariant over all reachable states."
  },
  {
   "property": "C33",
   "status": "partial",
   "theorems": [
    "C33_reads_refuted",
    "C33_reads_partial",
    "C33_exists_pure",
    "C33_reads_repeatable",
    "C33_iff_partial"
   ],
   "note": "False for reads of expired keys (they purge). Proved: a read leaves no trace exactly if it names none, and reads stay repeatable."
  },
  {
   "property": "C34",
   "status": "proved",
   "theorems": [
    "C34_hset",
    "C34_hset_expired"
   ],
   "note": "Exact text, other fields unchanged, count of new fields; also the expired case."
  },
  {
   "property": "C35",
   "status": "partial",
   "theorems": [
    "C35_hlen_exact",
    "C35_hlen_refuted",
    "C35_hlen_partial"
   ],
   "note": "Refuted: HExists lowers the length. Proved for every history without HExists, modulo int wrap; for every history, HLen is the number of fields less the HExists calls that found their field since the hash was made."
  },
  {
   "property": "C36",
   "status": "partial",
   "theorems": [
    "C36_iff_partial",
    "C36_hexists_refuted",
    "C36_hexists_partial",
    "C36_hexists_hlen_partial"
   ],
   "note": "Refuted: HExists lowers what HLen reports exactly if it finds the field. Proved: the reply is right and nothing but HLen of that key can change."
  },
  {
   "property": "C37",
   "status": "proved",
   "theorems": [
    "C37_hdel"
   ],
   "note": "Full, with the number of distinct present fields."
  },
  {
   "property": "C38",
   "status": "partial",
   "theorems": [
    "C38_every_hash_refuted",
    "C38_empty_hash_stays_refuted",
    "C38_empty_hash_partial",
    "C38_exact_partial"
   ],
   "note": "Refuted for every hash: the key stays with an empty hash. Proved what remains. Exactly: Exists says gone after HDel iff the key was not stored before."
  },
  {
   "property": "C39",
   "status": "partial",
   "theorems": [
    "C39_iff_partial",
    "C39_hincrby_refuted",
    "C39_hincrby_partial",
    "C39_hincrby_not_integer"
   ],
   "note": "Refuted: the stored value is the increment. Proved: the reply is the sum; the field shows it exactly if it was absent or zero."
  },
  {
   "property": "C40",
   "status": "proved",
   "theorems": [
    "C40_hsetnx"
   ],
   "note": "Full."
  },
  {
   "property": "C41",
   "status": "proved",
   "theorems": [
    "C41_hmset",
    "C41_hmset_any_order",
    "C41_hmget"
   ],
   "note": "Full: count, contents, order independence, and HMGet position by position."
  },
  {
   "property": "C42",
   "status": "partial",
   "theorems": [
    "C42_hkeys_exact",
    "C42_hkeys_absent_refuted",
    "C42_hkeys_partial",
    "C42_enumeration_absent_panics"
   ],
   "note": "Refuted for absent keys (panic). Proved for every stored hash, and the outcome in every state, panics included."
  },
  {
   "property": "C43",
   "status": "partial",
   "theorems": [
    "C43_iff_partial",
    "C43_hvals_exact",
    "C43_hvals_refuted",
    "C43_hvals_partial"
   ],
   "note": "Refuted: numeric fields are left out. Proved: exactly the fields kept as text are returned, so all of them exactly if no field is a number; the outcome in every state, panics included."
  },
  {
   "property": "C44",
   "status": "partial",
   "theorems": [
    "C44_hgetall_exact",
    "C44_hgetall_refuted",
    "C44_hgetall_partial"
   ],
   "note": "Refuted: always a nil map. Proved what is returned for every hash, and the outcome in every state, panics included."
  },
  {
   "property": "C45",
   "status": "proved",
   "theorems": [
    "C45_hash_call_on_string"
   ],
   "note": "All fourteen hash calls."
  },
  {
   "property": "C46",
   "status": "proved",
   "theorems": [
    "C46_hstrlen"
   ],
   "note": "Full, every ready state."
  },
  {
   "property": "C47",
   "status": "proved",
   "theorems": [
    "C47_locked_calls_linearizable"
   ],
   "note": "Linearizability with a clock that may advance at any moment, for any number of goroutines."
  },
  {
   "property": "C48",
   "status": "proved",
   "theorems": [
    "C48_no_lost_increment"
   ],
   "note": "Full, also with writers of other keys running."
  },
  {
   "property": "C49",
   "status": "partial",
   "theorems": [
    "C49_expired_value_seen_refuted",
    "C49_one_reader_per_key_linearizable_partial",
    "C49_one_reader_per_key_partial"
   ],
   "note": "Refuted: two overlapping Gets of an expired key. Proved when each key has one reader: linearizable, and a Get issued past the deadline finds nothing."
  },
  {
   "property": "C50",
   "status": "partial",
   "theorems": [
    "C50_exact_partial",
    "C50_concurrent_hset_lost_refuted",
    "C50_existing_hash_partial"
   ],
   "note": "Refuted: two HSets that both create the key. Proved when the hash already exists. Exactly which fields n goroutines can leave when they create a hash together: any non-empty set of them (C50_exact_partial)."
  },
  {
   "property": "C51",
   "status": "partial",
   "theorems": [
    "C51_fresh_value_lost_refuted",
    "C51_one_reader_per_key_partial"
   ],
   "note": "Refuted: Type paused between expiry check and delete. Proved when readers hold the read lock and each key has one reader."
  },
  {
   "property": "C52",
   "status": "partial",
   "theorems": [
    "C52_mset_torn_refuted",
    "C52_all_seen_after_return_partial",
    "C52_old_or_new_partial"
   ],
   "note": "Refuted: MSet takes no lock. Proved: all pairs visible once it returned, and each key shows the old or the new value meanwhile."
  },
  {
   "property": "C53",
   "status": "proved",
   "theorems": [
    "C53_no_deadlock",
    "C53_writer_preference"
   ],
   "note": "All calls, all schedules, also with a mutex that lets no reader pass a waiting writer."
  },
  {
   "property": "C54",
   "status": "proved",
   "theorems": [
    "C54_integer_text_round_trip",
    "C54_integer_text_injective"
   ],
   "note": "Full."
  },
  {
   "property": "C55",
   "status": "proved",
   "theorems": [
    "C55_request_bytes"
   ],
   "note": "Full: the bytes are an encoding of the arguments and of nothing else, also as a prefix of a longer stream."
  },
  {
   "property": "C56",
   "status": "proved",
   "theorems": [
    "C56_prefix_free",
    "C56_every_message_encoded",
    "C56_serialize_injective"
   ],
   "note": "Full, with every message that has an encoding encoded by Serialize."
  },
  {
   "property": "C57",
   "status": "proved",
   "theorems": [
    "C57_buffered_reply"
   ],
   "note": "Full, for replies of at most 2^48 bytes (the largest slice Go can allocate)."
  },
  {
   "property": "C58",
   "status": "partial",
   "theorems": [
    "C58_chunking_changes_reply_refuted",
    "C58_large_bulk_refuted",
    "C58_short_replies_any_chunking_partial",
    "C58_whole_replies_per_chunk_partial",
    "C58_bulk_any_chunking_partial",
    "C58_bulk_right_or_zero_partial",
    "C58_every_cut_refuted"
   ],
   "note": "Refuted: a bulk payload may come back cut and zero padded, at every position. Proved for replies without bulks of two or more bytes under every chunking, for every reply when chunks are whole replies of at most 4096 bytes, and what a bulk becomes under any chunking."
  },
  {
   "property": "C59",
   "status": "partial",
   "theorems": [
    "C59_bad_header_panics_refuted",
    "C59_malformed_reply_panics_refuted",
    "C59_panic_needs_bad_length_partial",
    "C59_no_bulk_header_no_panic_partial"
   ],
   "note": "Refuted: a bulk length of -2 panics, and so does every such header that is reached, however the bytes arrive (C59_bad_header_panics_refuted). Proved: a panic needs a bulk header with a length below -1 or above 2^48."
  },
  {
   "property": "C60",
   "status": "partial",
   "theorems": [
    "C60_truncated_integer_refuted",
    "C60_truncated_array_refuted",
    "C60_truncated_bulks_partial",
    "C60_cut_line_refuted",
    "C60_cut_int_exact_partial"
   ],
   "note": "Refuted: a cut number or line is taken as complete (every line). Proved for bulk strings and nested non-empty arrays of them arriving in one chunk; exact for integers."
  },
  {
   "property": "C61",
   "status": "proved",
   "theorems": [
    "C61_receive_terminates"
   ],
   "note": "Full; a receive that fails without consuming anything reports end of stream."
  },
  {
   "property": "C62",
   "status": "proved",
   "theorems": [
    "C62_snapshot_byte_exact",
    "C62_truncated_snapshot_is_error"
   ],
   "note": "Full, and a truncated transfer is reported as an error."
  },
  {
   "property": "C63",
   "status": "proved",
   "theorems": [
    "C63_pipelined_in_order"
   ],
   "note": "Full."
  },
  {
   "property": "C64",
   "status": "proved",
   "theorems": [
    "C64_get_decodes",
    "C64_get_reports_broken_replies"
   ],
   "note": "Full, for every reply, with receive errors passed on."
  },
  {
   "property": "C65",
   "status": "partial",
   "theorems": [
    "C65_set_ok_refuted",
    "C65_set_error_exact_partial"
   ],
   "note": "Refuted: the text is always empty. Proved: the error is nil exactly on an OK reply."
  },
  {
   "property": "C66",
   "status": "partial",
   "theorems": [
    "C66_setnx_refuted",
    "C66_setnx_hides_outcome_partial",
    "C66_exact_partial"
   ],
   "note": "Refuted: every integer reply becomes an error. Proved: all of them give the same result."
  },
  {
   "property": "C67",
   "status": "partial",
   "theorems": [
    "C67_setex_psetex_incrby_refuted",
    "C67_setex_never_right_refuted",
    "C67_other_requests_partial",
    "C67_exact_partial"
   ],
   "note": "Refuted for the three methods named. Proved for the other sixteen."
  },
  {
   "property": "C68",
   "status": "partial",
   "theorems": [
    "C68_incrbyfloat_refuted",
    "C68_incrbyfloat_zero_partial",
    "C68_errors_reported_partial",
    "C68_exact_partial"
   ],
   "note": "Refuted: the test for the parse error is inverted. Proved: zero is returned for every float."
  },
  {
   "property": "C69",
   "status": "partial",
   "theorems": [
    "C69_other_replies_silent_refuted",
    "C69_integer_replies_partial",
    "C69_exact_partial"
   ],
   "note": "Refuted: other replies give 0 without an error. Proved the result for every reply, and for exactly which replies the property holds (C69_exact_partial)."
  },
  {
   "property": "C70",
   "status": "proved",
   "theorems": [
    "C70_mget_positional"
   ],
   "note": "Full."
  },
  {
   "property": "C71",
   "status": "partial",
   "theorems": [
    "C71_reply_mixup_refuted",
    "C71_own_reply_short_partial",
    "C71_own_reply_whole_chunks_partial"
   ],
   "note": "Refuted: a split payload leaks into the next reply. Proved for short replies under every chunking and for all replies in whole chunks."
  },
  {
   "property": "C72",
   "status": "proved",
   "theorems": [
    "C72_bounded_and_exclusive"
   ],
   "note": "Full: every schedule, any number of goroutines, also with cancelled contexts, failed dials and Close."
  },
  {
   "property": "C73",
   "status": "proved",
   "theorems": [
    "C73_put_never_blocks"
   ],
   "note": "Full."
  },
  {
   "property": "C74",
   "status": "partial",
   "theorems": [
    "C74_failed_dial_wedges_pool",
    "C74_get_blocks_for_ever_refuted",
    "C74_idle_connection_served_partial"
   ],
   "note": "Refuted: the mutex stays locked; every Get that reaches it blocks in every continuation, and no connection is opened again. Proved: idle connections are still served."
  },
  {
   "property": "C75",
   "status": "partial",
   "theorems": [
    "C75_close_never_returns_refuted",
    "C75_close_runs_for_ever",
    "C75_close_empties_pool_partial"
   ],
   "note": "Refuted: the channel is never closed, so Close returns only if closing a connection fails. Proved: undisturbed it takes and closes every idle connection."
  },
  {
   "property": "C76",
   "status": "proved",
   "theorems": [
    "C76_no_deadlock"
   ],
   "note": "Full."
  },
  {
   "property": "C77",
   "status": "partial",
   "theorems": [
    "C77_exact_partial",
    "C77_partial",
    "C77_large_refuted",
    "C77_refuted"
   ],
   "note": "Refuted: every length from 2^14 on is read as 0. Proved below that, with the exact result for all lengths under every chunking."
  },
  {
   "property": "C78",
   "status": "partial",
   "theorems": [
    "C78_int8_partial",
    "C78_exact_partial",
    "C78_partial",
    "C78_negative_refuted",
    "C78_refuted"
   ],
   "note": "Refuted: every negative 16- or 32-bit integer is read as unsigned. Proved for 8-bit integers and for all non-negative ones."
  },
  {
   "property": "C79",
   "status": "partial",
   "theorems": [
    "C79_file_partial",
    "C79_exact_partial",
    "C79_crossing_refuted",
    "C79_refuted"
   ],
   "note": "Refuted: a string of which the buffer holds a part only is padded with zero bytes. Proved for strings below 2^14 bytes that do not cross a 4096-byte boundary of the file, with the exact result otherwise."
  },
  {
   "property": "C80",
   "status": "partial",
   "theorems": [
    "C80_partial",
    "C80_large_refuted"
   ],
   "note": "Refuted: every text from 2^14 bytes on panics. Proved below that under every chunking."
  },
  {
   "property": "C81",
   "status": "partial",
   "theorems": [
    "C81_exact_partial",
    "C81_zero_partial",
    "C81_others_refuted",
    "C81_refuted"
   ],
   "note": "Refuted: every double but +0 is lost. Proved: the result is always +0, eight bytes are consumed."
  },
  {
   "property": "C82",
   "status": "partial",
   "theorems": [
    "C82_markers_refuted",
    "C82_text_partial",
    "C82_refuted"
   ],
   "note": "Refuted: the three markers are read as 1, 1 and -1. Proved for every finite text."
  },
  {
   "property": "C83",
   "status": "partial",
   "theorems": [
    "C83_partial",
    "C83_small_partial",
    "C83_refuted"
   ],
   "note": "Refuted: a value across a 4096-byte boundary is damaged. Proved for every snapshot without such a string, in particular every one of up to 4096 bytes."
  },
  {
   "property": "C84",
   "status": "partial",
   "theorems": [
    "C84_partial",
    "C84_truncated_partial",
    "C84_refuted",
    "C84_unsupported_refuted"
   ],
   "note": "Refuted: a stream key ends the load with success and later keys are lost. Proved for all other types within the supported sizes, and that a truncated snapshot is never a success."
  },
  {
   "property": "C85",
   "status": "partial",
   "theorems": [
    "C85_exact_partial",
    "C85_all_refuted",
    "C85_packed_partial",
    "C85_refuted"
   ],
   "note": "Refuted: plain hashes are always replayed as sorted sets. Proved for the two packed forms."
  },
  {
   "property": "C86",
   "status": "partial",
   "theorems": [
    "C86_exact_partial",
    "C86_partial",
    "C86_large_refuted",
    "C86_refuted"
   ],
   "note": "Refuted: from 4294968 seconds on the product wraps. Proved below that in any snapshot, with the exact result for all."
  },
  {
   "property": "C87",
   "status": "partial",
   "theorems": [
    "C87_exact_partial",
    "C87_packed_partial",
    "C87_plain_refuted",
    "C87_refuted"
   ],
   "note": "Refuted: plain lists are reversed. Proved for quick lists and ziplists."
  },
  {
   "property": "C88",
   "status": "partial",
   "theorems": [
    "C88_intset_exact_partial",
    "C88_intset_partial",
    "C88_intset_refuted",
    "C88_intset_negative_refuted"
   ],
   "note": "Refuted: every negative 16- or 32-bit element is read as unsigned. Proved for 64-bit sets and for sets without negative elements, with the exact result for all."
  },
  {
   "property": "C89",
   "status": "partial",
   "theorems": [
    "C89_ziplist_shown_partial",
    "C89_ziplist_partial",
    "C89_ziplist_int_refuted",
    "C89_ziplist_int64_refuted",
    "C89_ziplist_int64_cut_refuted",
    "C89_ziplist_long_refuted",
    "C89_ziplist_kept_partial",
    "C89_ziplist_upto_partial",
    "C89_ziplist_iff_partial",
    "C89_ziplist_any_long_refuted",
    "C89_ziplist_any_int_refuted"
   ],
   "note": "Refuted: larger integers and strings of 64 bytes are misread. Proved: exactly which ziplists decode rightly, and the result for 8- to 32-bit integers and strings below 256 bytes."
  },
  {
   "property": "C90",
   "status": "partial",
   "theorems": [
    "C90_zipmap_partial",
    "C90_zipmap_refuted"
   ],
   "note": "Refuted: the second entry is misread. Proved for at most one entry."
  },
  {
   "property": "C91",
   "status": "partial",
   "theorems": [
    "C91_first_key_partial",
    "C91_layout_partial",
    "C91_load_never_refuted",
    "C91_third_set_refuted",
    "C91_capacity_refuted",
    "C91_lost_refuted",
    "C91_phantom_refuted",
    "C91_array_partial"
   ],
   "note": "Refuted: Load is wrong for every pair, keys are lost, invented, or make Set panic, which can depend on spare capacity. Proved: the layout after any Sets, the count up to 254, Lookup of the first key."
  },
  {
   "property": "C92",
   "status": "partial",
   "theorems": [
    "C92_round_trip_refuted",
    "C92_empty_refuted",
    "C92_round_trip_partial"
   ],
   "note": "Refuted: a text that does not shrink is returned as it is and DeCompress then misreads it; the empty text panics. Proved for every table content: the result decompresses to the text whenever it differs from it."
  },
  {
   "property": "C93",
   "status": "proved",
   "theorems": [
    "C93_compress_safe",
    "C93_one_byte_overread"
   ],
   "note": "Full, for every input of at least two bytes; on a single byte the compressor reads one byte too far."
  },
  {
   "property": "C94",
   "status": "proved",
   "theorems": [
    "C94_decompress_safe"
   ],
   "note": "Full, also that the result does not depend on what the output buffer held."
  },
  {
   "property": "C95",
   "status": "proved",
   "theorems": [
    "C95_decompress_format",
    "C95_decompress_only_format",
    "C95_DeCompress"
   ],
   "note": "Full, and only token streams are accepted."
  },
  {
   "property": "C96",
   "status": "partial",
   "theorems": [
    "C96_corrupt_refuted",
    "C96_short_refuted",
    "C96_corrupt_partial"
   ],
   "note": "Refuted: corrupt input is returned as the text, and short texts are padded with zero bytes. Proved: any other result is the text denoted by the input."
  },
  {
   "property": "C97",
   "status": "partial",
   "theorems": [
    "C97_in_order_partial",
    "C97_progress_partial",
    "C97_refuted"
   ],
   "note": "Refuted: the cache New makes has no dictionaries, and the first set ends the process. Proved for every schedule that what is applied is the stream in order, each once, and that the handler can always finish the queue if it reads Err between errors."
  },
  {
   "property": "C98",
   "status": "partial",
   "theorems": [
    "C98_partial",
    "C98_reported_unchanged_partial",
    "C98_refuted"
   ],
   "note": "Refuted: every hmset is accepted and dropped. Proved for all other commands."
  },
  {
   "property": "C99",
   "status": "partial",
   "theorems": [
    "C99_exact_partial",
    "C99_partial",
    "C99_set_refuted",
    "C99_rpush_refuted"
   ],
   "note": "Refuted: set with fewer than two arguments and rpush with any panic. Proved that these are exactly the crashing messages."
  },
  {
   "property": "C100",
   "status": "partial",
   "theorems": [
    "C100_forever_refuted",
    "C100_refuted",
    "C100_partial"
   ],
   "note": "Refuted: a second error while Err is full blocks its only reader forever (in every continuation). Proved that one error at a time is harmless."
  },
  {
   "property": "C101",
   "status": "partial",
   "theorems": [
    "C101_partial",
    "C101_live_refuted",
    "C101_refuted"
   ],
   "note": "Refuted: live messages always count as database 0. Proved for the snapshot."
  },
  {
   "property": "C102",
   "status": "partial",
   "theorems": [
    "C102_refuted",
    "C102_partial"
   ],
   "note": "Refuted for every key at every time: the cache New makes has no dictionaries. Proved for a cache from cache.New."
  },
  {
   "property": "C103",
   "status": "partial",
   "theorems": [
    "C103_exact_partial",
    "C103_refuted"
   ],
   "note": "Refuted: any message whose text begins with ping is dropped. Proved that these are exactly the dropped ones."
  },
  {
   "property": "C104",
   "status": "proved",
   "theorems": [
    "C104_concurrent_calls_never_crash",
    "C104_excluded_calls_do_crash"
   ],
   "note": "All calls but HKeys, HVals, HGetAll and SetRange above 2^48, which do crash (C42, C11 and the companion theorem)."
  },
  {
   "property": "C105",
   "status": "proved",
   "theorems": [
    "C105_readers_and_writers_linearizable"
   ],
   "note": "Real-time respecting linearizability; readers take effect when they load the value."
  },
  {
   "property": "C106",
   "status": "partial",
   "theorems": [
    "C106_waits_below_capacity_refuted",
    "C106_undisturbed_get_partial"
   ],
   "note": "Refuted: a connection just opened can be taken by another caller, and the one who opened it then waits although the pool could grow. Proved for an undisturbed caller."
  },
  {
   "property": "C107",
   "status": "proved",
   "theorems": [
    "C107_load_ends"
   ],
   "note": "Full: every file, in every chunking."
  },
  {
   "property": "C108",
   "status": "partial",
   "theorems": [
    "C108_partial",
    "C108_refuted"
   ],
   "note": "Refuted: an id across a 4096-byte boundary is damaged and the load succeeds. Proved for every snapshot without such a string."
  },
  {
   "property": "C109",
   "status": "partial",
   "theorems": [
    "C109_exact_partial",
    "C109_refuted"
   ],
   "note": "Refuted: the deadline is replayed as a duration, so that every key expires too late. Proved the instant it expires."
  },
  {
   "property": "C110",
   "status": "partial",
   "theorems": [
    "C110_exact_partial",
    "C110_refuted"
   ],
   "note": "Refuted: member and score are swapped, so that no set with a member that is not a number is restored. Proved the exact command."
  },
  {
   "property": "C111",
   "status": "proved",
   "theorems": [
    "C111_handshake"
   ],
   "note": "Full: every snapshot, stream and chunking."
  },
  {
   "property": "C112",
   "status": "partial",
   "theorems": [
    "C112_ping_partial",
    "C112_truncated_partial",
    "C112_refuted",
    "C112_line_refuted",
    "C112_array_refuted",
    "C112_garbage_partial",
    "C112_text_never_loads_partial"
   ],
   "note": "Refuted: the text of an error reply to SYNC is saved as the snapshot. Proved for a wrong reply to PING and a truncated snapshot, and that a printable text never loads."
  },
  {
   "property": "C113",
   "status": "partial",
   "theorems": [
    "C113_mirror_partial",
    "C113_refuted"
   ],
   "note": "Refuted for the cache New makes (see C97). Proved for every schedule with any cache in order, for snapshots of string keys within the sizes of C83."
  },
  {
   "property": "C114",
   "status": "partial",
   "theorems": [
    "C114_refuted",
    "C114_zero_refuted",
    "C114_partial",
    "C114_connected_partial"
   ],
   "note": "Refuted: the closed channel yields nil messages without end. Proved while the stream is open."
  },
  {
   "property": "C115",
   "status": "proved",
   "theorems": [
    "C115_bounded_queue",
    "C115_full_queue_waits"
   ],
   "note": "Full: the bound for every schedule, and that a sender waits exactly while the queue is full."
  },
  {
   "property": "C116",
   "status": "proved",
   "theorems": [
    "C116_logged_once"
   ],
   "note": "Full: every schedule; the logged and the pending errors together are those that occurred."
  },
  {
   "property": "C117",
   "status": "proved",
   "theorems": [
    "C117_new_reports"
   ],
   "note": "Full: every snapshot, stream and schedule."
  },
  {
   "property": "C118",
   "status": "proved",
   "theorems": [
    "C118_map_reply"
   ],
   "note": "Full: every reply."
  },
  {
   "property": "C119",
   "status": "partial",
   "theorems": [
    "C119_hincrbyfloat_refuted",
    "C119_hincrbyfloat_partial",
    "C119_hincrbyfloat_not_integer_partial",
    "C119_second_call_fails_refuted"
   ],
   "note": "Refuted: the field holds the increment, and after a fraction every further call fails. Proved: the reply is the sum, what the field then shows, other fields kept, failures change nothing."
  },
  {
   "property": "C120",
   "status": "partial",
   "theorems": [
    "C120_exact_partial",
    "C120_copy_partial",
    "C120_copy_refuted"
   ],
   "note": "Refuted for negative zero. Proved for every other value in every reachable state (C120_exact_partial joins both)."
  },
  {
   "property": "C121",
   "status": "proved",
   "theorems": [
    "C121_incrbyfloat_text"
   ],
   "note": "Full: every reachable state and every float."
  },
  {
   "property": "C122",
   "status": "proved",
   "theorems": [
    "C122_one_at_a_time",
    "C122_where",
    "C122_returns_its_result",
    "C122_own_reply"
   ],
   "note": "Full: every schedule; own replies under C71's condition on how replies arrive."
  },
  {
   "property": "C123",
   "status": "proved",
   "theorems": [
    "C123_greets_first",
    "C123_refused"
   ],
   "note": "Full: every schedule, option and stream."
  },
  {
   "property": "C124",
   "status": "partial",
   "theorems": [
    "C124_select_refuted",
    "C124_single_connection_partial"
   ],
   "note": "Refuted: the pool hands out another connection. Proved with PoolSize 1."
  },
  {
   "property": "C125",
   "status": "partial",
   "theorems": [
    "C125_closed_connection_partial",
    "C125_never_reconnects_refuted"
   ],
   "note": "Refuted, universally for PoolSize 1: a closed connection goes back to the pool. Proved: every later command on it reports EOF."
  },
  {
   "property": "C126",
   "status": "partial",
   "theorems": [
    "C126_empty_record_partial",
    "C126_refuted"
   ],
   "note": "Refuted, for every record with data: Load fails there. Proved: a record without data is skipped."
  },
  {
   "property": "C127",
   "status": "partial",
   "theorems": [
    "C127_any_partial",
    "C127_partial",
    "C127_refuted"
   ],
   "note": "Refuted: the last value may be padded with zero bytes or empty. Proved: all but the last command and its expiry are the snapshot's. For every byte sequence, well-formed or not: all but the last two messages are those of the longer file (C127_any_partial)."
  },
  {
   "property": "C128",
   "status": "partial",
   "theorems": [
    "C128_exact_partial",
    "C128_new_cache_refuted",
    "C128_refuted"
   ],
   "note": "Refuted: the mirror learns of it later; with New's cache every Get crashes. Proved: Get shows the last value the mirror was told."
  },
  {
   "property": "C129",
   "status": "proved",
   "theorems": [
    "C129_get_is_local",
    "C129_set_is_remote"
   ],
   "note": "Full: every step of both."
  },
  {
   "property": "C130",
   "status": "partial",
   "theorems": [
    "C130_refuted",
    "C130_partial"
   ],
   "note": "Refuted, always: nil pointer crash. Proved: no crash if New succeeded."
  },
  {
   "property": "C131",
   "status": "partial",
   "theorems": [
    "C131_refuted"
   ],
   "note": "Refuted: Stop does nothing, anywhere in any execution."
  },
  {
   "property": "C132",
   "status": "proved",
   "theorems": [
    "C132_is_a_client",
    "C132_only_sets",
    "C132_returns_its_result"
   ],
   "note": "Full: every schedule; a pending request is only known to be some request."
  },
  {
   "property": "C133",
   "status": "proved",
   "theorems": [
    "C133_addresses"
   ],
   "note": "Full."
  },
  {
   "property": "C134",
   "status": "proved",
   "theorems": [
    "C134_order"
   ],
   "note": "Full: all growth policies."
  },
  {
   "property": "C135",
   "status": "partial",
   "theorems": [
    "C135_refuted",
    "C135_partial"
   ],
   "note": "Refuted: a common backing array is overwritten. Proved without AppendTail, or without spare capacity."
  },
  {
   "property": "C136",
   "status": "partial",
   "theorems": [
    "C136_refuted"
   ],
   "note": "Refuted, always: every list call panics."
  },
  {
   "property": "C137",
   "status": "partial",
   "theorems": [
    "C137_offset_never_moves_refuted",
    "C137_only_acks_partial",
    "C137_each_tick_partial"
   ],
   "note": "Refuted, always: every ack repeats the snapshot's offset. Proved: nothing but whole acks is sent, and only after New succeeded."
  },
  {
   "property": "C138",
   "status": "proved",
   "theorems": [
    "C138_returned_to_the_end",
    "C138_fifo"
   ],
   "note": "Full, without Close."
  },
  {
   "property": "C139",
   "status": "proved",
   "theorems": [
    "C139_no_connection_lost"
   ],
   "note": "Full, without Close."
  },
  {
   "property": "C140",
   "status": "partial",
   "theorems": [
    "C140_closed_pool_serves_nobody_refuted",
    "C140_below_capacity_partial"
   ],
   "note": "Refuted: closed connections still count, a used-up pool serves nobody. Proved below capacity."
  },
  {
   "property": "C141",
   "status": "proved",
   "theorems": [
    "C141_close_takes_idle_only"
   ],
   "note": "Full."
  },
  {
   "property": "C142",
   "status": "partial",
   "theorems": [
    "C142_ends_the_process_refuted",
    "C142_only_bad_lengths_partial"
   ],
   "note": "Refuted: a bad bulk length ends the process for everybody. Proved: nothing else a server sends does."
  },
  {
   "property": "C143",
   "status": "proved",
   "theorems": [
    "C143_tickets",
    "C143_in_order"
   ],
   "note": "Full: with string writers, Del, Flush on other keys, and readers if no deadlines are set."
  },
  {
   "property": "C144",
   "status": "proved",
   "theorems": [
    "C144_one_winner",
    "C144_readers_agree"
   ],
   "note": "Full: company as for C143."
  },
  {
   "property": "C145",
   "status": "proved",
   "theorems": [
    "C145_one_deleter"
   ],
   "note": "Full: company as for C143."
  },
  {
   "property": "C146",
   "status": "proved",
   "theorems": [
    "C146_hand_over"
   ],
   "note": "Full: company as for C143; values appear as C06 says."
  },
  {
   "property": "C147",
   "status": "proved",
   "theorems": [
    "C147_appends_add_up"
   ],
   "note": "Full for texts that the cache does not reformat (C06); company as for C143."
  },
  {
   "property": "C148",
   "status": "proved",
   "theorems": [
    "C148_reads_see_writes"
   ],
   "note": "Full: company as for C143."
  },
  {
   "property": "C149",
   "status": "proved",
   "theorems": [
    "C149_no_endless_run",
    "C149_every_call_returns"
   ],
   "note": "Full; for HKeys, HVals and HGetAll see C42, for SetRange above 2^48 see C11."
  },
  {
   "property": "C150",
   "status": "proved",
   "theorems": [
    "C150_no_reader_goes_back"
   ],
   "note": "Full: company as for C143."
  },
  {
   "property": "C151",
   "status": "partial",
   "theorems": [
    "C151_stubs_refuted"
   ],
   "note": "Refuted for every key and value: the methods are stubs."
  },
  {
   "property": "C152",
   "status": "partial",
   "theorems": [
    "C152_hvals_torn_refuted",
    "C152_written_field_shown_partial",
    "C152_hmget_only_written_partial"
   ],
   "note": "Refuted (HVals mixes two moments). Proved field by field for HKeys, HVals, HMGet on a hash that stays."
  },
  {
   "property": "C153",
   "status": "proved",
   "theorems": [
    "C153_only_written_values"
   ],
   "note": "Full."
  },
  {
   "property": "C154",
   "status": "proved",
   "theorems": [
    "C154_hkeys_only_known_fields"
   ],
   "note": "Full."
  },
  {
   "property": "C155",
   "status": "partial",
   "theorems": [
    "C155_count_lost_refuted",
    "C155_hlen_never_overcounts_partial",
    "C155_exact_partial"
   ],
   "note": "Refuted. Proved: HLen never exceeds the number of fields while none is removed. Exactly which counts n goroutines can leave when each adds one field: from one more than before to n more (C155_exact_partial)."
  },
  {
   "property": "C156",
   "status": "proved",
   "theorems": [
    "C156_different_keys_do_not_interfere"
   ],
   "note": "Simulation: the shared run is followed by one run per group."
  },
  {
   "property": "C157",
   "status": "proved",
   "theorems": [
    "C157_own_keys_are_sequential"
   ],
   "note": "From C156."
  },
  {
   "property": "C158",
   "status": "partial",
   "theorems": [
    "C158_saving_lost_refuted",
    "C158_four_bytes_saved_partial",
    "C158_larger_buffer_partial"
   ],
   "note": "Refuted (3 saved bytes lost). Proved with four bytes saved; larger buffers receive the same bytes."
  },
  {
   "property": "C159",
   "status": "partial",
   "theorems": [
    "C159_size_in_format_partial",
    "C159_set_adds_partial",
    "C159_set_adds_refuted"
   ],
   "note": "Size in the format proved; refuted for Set on every zipmap, which adds one byte less."
  },
  {
   "property": "C160",
   "status": "proved",
   "theorems": [
    "C160_alone",
    "C160_any_interleaving",
    "C160_two_calls"
   ],
   "note": "Full."
  },
  {
   "property": "C161",
   "status": "proved",
   "theorems": [
    "C161_past_forgotten"
   ],
   "note": "Full; for Set see C06."
  },
  {
   "property": "C162",
   "status": "proved",
   "theorems": [
    "C162_two_increments",
    "C162_incr_decr"
   ],
   "note": "Full, in every state."
  },
  {
   "property": "C163",
   "status": "partial",
   "theorems": [
    "C163_append_pieces_refuted",
    "C163_append_pieces_partial"
   ],
   "note": "Refuted: the text may be a number in between. Proved when the text in between is kept as it is."
  },
  {
   "property": "C164",
   "status": "proved",
   "theorems": [
    "C164_msetnx",
    "C164_exists",
    "C164_hdel",
    "C164_hmset"
   ],
   "note": "Full."
  },
  {
   "property": "C165",
   "status": "proved",
   "theorems": [
    "C165_setex_psetex"
   ],
   "note": "Full."
  },
  {
   "property": "C166",
   "status": "partial",
   "theorems": [
    "C166_hget_exact_partial",
    "C166_hsetnx_refuted",
    "C166_setnx_partial",
    "C166_msetnx_partial",
    "C166_hsetnx_partial"
   ],
   "note": "Refuted for HSetNX of number literals. Proved for SetNX, MSetNX and for HSetNX of other texts; for exactly which texts HGet shows no difference is C166_hget_exact_partial."
  },
  {
   "property": "C167",
   "status": "proved",
   "theorems": [
    "C167_setrange_at_end"
   ],
   "note": "Full."
  },
  {
   "property": "C168",
   "status": "partial",
   "theorems": [
    "C168_reference_refuted",
    "C168_reference_partial"
   ],
   "note": "Refuted by the defects above. Proved for every history whose calls avoid them, condition by condition."
  },
  {
   "property": "C169",
   "status": "proved",
   "theorems": [
    "C169_one_reference_store"
   ],
   "note": "Full."
  },
  {
   "property": "C170",
   "status": "proved",
   "theorems": [
    "C170_counters_share_reference_store",
    "C170_bound_needed"
   ],
   "note": "Full; the bound is needed."
  },
  {
   "property": "C171",
   "status": "partial",
   "theorems": [
    "C171_reads_follow_master_partial",
    "C171_reads_follow_master_refuted"
   ],
   "note": "Refuted: a value split over two chunks is shown damaged. Proved for string snapshots within the sizes of C83 and streams in chunks of whole messages."
  },
  {
   "property": "C172",
   "status": "proved",
   "theorems": [
    "C172_parts_one_after_the_other"
   ],
   "note": "Full."
  },
  {
   "property": "C173",
   "status": "partial",
   "theorems": [
    "C173_one_moment_refuted",
    "C173_key_by_key_partial",
    "C173_reference_store_partial"
   ],
   "note": "Refuted: keys are looked at one after the other. Proved key by key, in order, also against the reference store."
  },
  {
   "property": "C174",
   "status": "partial",
   "theorems": [
    "C174_key_by_key_partial",
    "C174_lost_refuted"
   ],
   "note": "Refuted for GetSet, Append, SetRange, the counters and Del: they write back over an MSet that has returned. Proved among all calls that do not look and then write."
  },
  {
   "property": "C175",
   "status": "proved",
   "theorems": [
    "C175_pointer_steps_unobservable",
    "C175_same_observations"
   ],
   "note": "Full, in both directions."
  },
  {
   "property": "C176",
   "status": "partial",
   "theorems": [
    "C176_field_calls_partial",
    "C176_torn_refuted"
   ],
   "note": "Full statement is false: HDel, HIncrBy, HIncrByFloat, HMSet, HMGet, HVals, HKeys, HLen and new hashes (refuted). Proved for the other calls on one field of an existing hash, with progress."
  },
  {
   "property": "C177",
   "status": "proved",
   "theorems": [
    "C177_alone",
    "C177_history",
    "C177_all_orders",
    "C177_own_order"
   ],
   "note": "Range by its documentation only: calls alone and histories, up to the order of lists."
  },
  {
   "property": "C178",
   "status": "proved",
   "theorems": [
    "C178_hkeys",
    "C178_hget",
    "C178_hvals",
    "C178_covers"
   ],
   "note": "Range by its documentation only, for every schedule; every execution of CacheConc is one of these."
  },
  {
   "property": "C179",
   "status": "proved",
   "theorems": [
    "C179_alone",
    "C179_history",
    "C179_goroutines",
    "C179_schedules"
   ],
   "note": "Relates two executions step by step; replies equal, lists of HKeys and HVals up to order."
  },
  {
   "property": "C180",
   "status": "proved",
   "theorems": [
    "C180_alone",
    "C180_history",
    "C180_goroutines"
   ],
   "note": "Relates two executions step by step; exact, cron included."
  },
  {
   "property": "C181",
   "status": "proved",
   "theorems": [
    "C181_goroutines",
    "C181_schedules",
    "C181_alone"
   ],
   "note": "Relates two executions step by step through a fixed one-to-one link of hash addresses; with the fixed order of CacheConc.v without the sweep, with any order of Range for all calls."
  },
  {
   "property": "C182",
   "status": "proved",
   "theorems": [
    "C182_replies_show_contents",
    "C182_goroutines"
   ],
   "note": "Both directions, for caches made from New() with ints and floats in the range of their Go types."
  },
  {
   "property": "C183",
   "status": "proved",
   "theorems": [
    "C183_labels",
    "C183_schedules",
    "C183_races",
    "C183_ordered",
    "C183_locked_free",
    "C183_readers_free"
   ],
   "note": "Every operation of every method labelled with the plain memory it touches (dictionary pointers, length of a hash); the labelled goroutines have the same schedules, events and caches as those of CacheConc.v."
  },
  {
   "property": "C184",
   "status": "proved",
   "theorems": [
    "C184_exact"
   ],
   "note": "So data races exist in the code as it is; the schedules are built for all keys, fields and values."
  },
  {
   "property": "C185",
   "status": "proved",
   "theorems": [
    "C185_refines",
    "C185_refined"
   ],
   "note": "Simulations both ways between PoolFine.v and PoolModel.v, so the pool theorems hold at the finer grain."
  },
  {
   "property": "C186",
   "status": "proved",
   "theorems": [
    "C186_exact",
    "C186_count_guarded"
   ],
   "note": "So data races exist in the code as it is (value receivers copy size and the mutex); the copied values are not used."
  },
  {
   "property": "C187",
   "status": "proved",
   "theorems": [
    "C187_send_exact",
    "C187_prefix"
   ],
   "note": "bufio.Writer modelled with its sticky error; transports fail by an arbitrary plan."
  },
  {
   "property": "C188",
   "status": "partial",
   "theorems": [
    "C188_without_failures",
    "C188_dead_refuted",
    "C188_same_connection"
   ],
   "note": "Refuted for every dead connection and all commands after it; the case without failures is full."
  },
  {
   "property": "C189",
   "status": "partial",
   "theorems": [
    "C189_exact_partial",
    "C189_complete_partial",
    "C189_silent_refuted",
    "C189_small_refuted",
    "C189_without_failures"
   ],
   "note": "C189_exact_partial gives the contents and the error for all failures; refuted for every non-empty snapshot (C189_silent_refuted). Load notices a cut file (C84)."
  },
  {
   "property": "C190",
   "status": "partial",
   "theorems": [
    "C190_linearizable_partial",
    "C190_answered",
    "C190_split_reply_refuted"
   ],
   "note": "Missing: replies holding bulk strings that arrive in pieces; refuted for those (C190_split_reply_refuted)."
  },
  {
   "property": "C191",
   "status": "proved",
   "theorems": [
    "C191_numbers_once"
   ],
   "note": "Unconditional as to the pieces of the replies, since integers are read byte by byte."
  },
  {
   "property": "C192",
   "status": "proved",
   "theorems": [
    "C192_panics_exact",
    "C192_returns"
   ],
   "note": "Exact, for every call and state."
  },
  {
   "property": "C193",
   "status": "proved",
   "theorems": [
    "C193_recovered_exact",
    "C193_history"
   ],
   "note": "The worlds are equal, not only indistinguishable."
  },
  {
   "property": "C194",
   "status": "proved",
   "theorems": [
    "C194_no_deadlock",
    "C194_only_these_panic"
   ],
   "note": "Also: the only calls that ever panic among goroutines are those of C192. A panic of the sweep could be recovered by nobody; there is none."
  },
  {
   "property": "C195",
   "status": "proved",
   "theorems": [
    "C195_readers_follow_stream"
   ],
   "note": "For a cache whose maps exist: New's own has none (C102). MirrorConc.v: each operation on the cache is a step of its own, with readers."
  },
  {
   "property": "C196",
   "status": "proved",
   "theorems": [
    "C196_same_replication",
    "C196_at_rest",
    "C196_calls_return"
   ],
   "note": "As C195. The execution without readers is one of ReplModel.v, so that its theorems apply."
  },
  {
   "property": "C197",
   "status": "proved",
   "theorems": [
    "C197_exact",
    "C197_reports",
    "C197_which",
    "C197_without_failures"
   ],
   "note": "SetupModel.v: everything New asks of the network and the file system may fail; with no failures it is the model of C111-C117."
  },
  {
   "property": "C198",
   "status": "partial",
   "theorems": [
    "C198_loaded_partial",
    "C198_any_partial",
    "C198_refuted"
   ],
   "note": "C198_any_partial is for all snapshots, up to the one message of C200; C198_loaded_partial is exact for those Load reads correctly (C77, C83)."
  },
  {
   "property": "C199",
   "status": "partial",
   "theorems": [
    "C199_exact_partial",
    "C199_conn_refuted"
   ],
   "note": "The finalizers of the Go runtime, which may close files nothing refers to, are not modelled."
  },
  {
   "property": "C200",
   "status": "partial",
   "theorems": [
    "C200_cut_partial",
    "C200_same_partial",
    "C200_refuted"
   ],
   "note": "Nothing is missing for the other messages: the exception is the last message, an expiry, and a real one (C200_refuted)."
  },
  {
   "property": "C201",
   "status": "partial",
   "theorems": [
    "C201_exact_partial",
    "C201_new_hash_refuted",
    "C201_two_winners_refuted"
   ],
   "note": "Refuted for a new hash (who is told 1 is characterised exactly, C201_new_hash_refuted). Proved, also exactly, for a hash that is there."
  },
  {
   "property": "C202",
   "status": "partial",
   "theorems": [
    "C202_exact_partial",
    "C202_gone_partial",
    "C202_refuted"
   ],
   "note": "Refuted; the possible replies and counts are characterised exactly (C202_exact_partial), and the field is always gone (C202_gone_partial)."
  },
  {
   "property": "C203",
   "status": "partial",
   "theorems": [
    "C203_exact_partial",
    "C203_refuted"
   ],
   "note": "Refuted; the possible counts are characterised exactly (C203_exact_partial)."
  }
 ]
}