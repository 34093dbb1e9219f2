{
 "claims": [
  {
   "property": "C01",
   "status": "proved",
   "theorems": [
    "base64_roundtrip",
    "base64url_roundtrip"
   ],
   "note": ""
  },
  {
   "property": "C02",
   "status": "proved",
   "theorems": [
    "base64_encode_is_rfc4648",
    "base64_encode_shape",
    "base64url_encode_shape"
   ],
   "note": ""
  },
  {
   "property": "C03",
   "status": "proved",
   "theorems": [
    "base64_decode_accepts_iff",
    "base64url_decode_accepts_iff",
    "base64_decode_rejects_iff",
    "base64url_decode_rejects_iff"
   ],
   "note": ""
  },
  {
   "property": "C04",
   "status": "proved",
   "theorems": [
    "base64_decode_in_bounds"
   ],
   "note": ""
  },
  {
   "property": "C05",
   "status": "proved",
   "theorems": [
    "base64_canonical_reencode",
    "base64_decode_injective_refuted",
    "base64url_decode_injective_refuted"
   ],
   "note": "Injectivity on all accepted texts is false of the code (non-zero trailing bits are accepted); it holds on canonical texts."
  },
  {
   "property": "C06",
   "status": "proved",
   "theorems": [
    "path_parse_meaning",
    "path_segments_ok"
   ],
   "note": ""
  },
  {
   "property": "C07",
   "status": "proved",
   "theorems": [
    "path_parse_throws_iff_meaningless",
    "path_parse_throws_iff"
   ],
   "note": ""
  },
  {
   "property": "C08",
   "status": "proved",
   "theorems": [
    "path_accessors_agree"
   ],
   "note": ""
  },
  {
   "property": "C09",
   "status": "proved",
   "theorems": [
    "path_prefix_injective"
   ],
   "note": ""
  },
  {
   "property": "C10",
   "status": "partial",
   "theorems": [
    "path_failed_set_readable",
    "path_failed_set_guarantee_refuted",
    "path_failed_set_exactly"
   ],
   "note": "The strong guarantee is refuted; what a failed set leaves is proved exactly: the segments before the failing piece, and the decoded beginning of that piece shown by joined."
  },
  {
   "property": "C11",
   "status": "proved",
   "theorems": [
    "tracker_answers_from_history"
   ],
   "note": "Histories shorter than 2^64-2 notifications, as the property says."
  },
  {
   "property": "C12",
   "status": "proved",
   "theorems": [
    "tracker_generations_increase",
    "tracker_polling_misses_nothing",
    "tracker_wraparound_refuted"
   ],
   "note": "tracker_wraparound_refuted shows the bound on the history is needed."
  },
  {
   "property": "C13",
   "status": "proved",
   "theorems": [
    "binary_round_trip",
    "binary_round_trip_large_refuted"
   ],
   "note": "Round trip for every nested type; the 2^32 limit of the size prefix is shown to be real."
  },
  {
   "property": "C14",
   "status": "proved",
   "theorems": [
    "reader_bounds_safe",
    "reader_values_typed"
   ],
   "note": "For skip, offsets other than PTRDIFF_MIN (see C19)."
  },
  {
   "property": "C15",
   "status": "proved",
   "theorems": [
    "binary_errors_sticky"
   ],
   "note": ""
  },
  {
   "property": "C16",
   "status": "proved",
   "theorems": [
    "truncated_input_detected"
   ],
   "note": ""
  },
  {
   "property": "C17",
   "status": "proved",
   "theorems": [
    "failed_container_read_empty",
    "failed_optional_read_empty_refuted",
    "failed_read_into_keeps_old_refuted"
   ],
   "note": "Proved for read_binary / operator>>; the refuted theorems show it does not extend to optionals or to read(T&) on a stream that already failed."
  },
  {
   "property": "C18",
   "status": "proved",
   "theorems": [
    "writer_exact_or_error"
   ],
   "note": ""
  },
  {
   "property": "C19",
   "status": "partial",
   "theorems": [
    "skip_within_bounds",
    "skip_most_negative_refuted"
   ],
   "note": "True for every offset but PTRDIFF_MIN, which is undefined behaviour (signed negation overflow)."
  },
  {
   "property": "C20",
   "status": "proved",
   "theorems": [
    "signal_refines_ideal",
    "signal_emission_in_order",
    "signal_slots_are_connected_ones",
    "signal_emission_misses_none",
    "signal_called_only_if_wanted",
    "signal_stop_ends_calls"
   ],
   "note": "For any number of threads and any schedule in which signals are not swapped, moved or destroyed under another thread inside disconnect."
  },
  {
   "property": "C21",
   "status": "proved",
   "theorems": [
    "signal_disconnected_not_called",
    "signal_disconnected_for_good"
   ],
   "note": ""
  },
  {
   "property": "C22",
   "status": "partial",
   "theorems": [
    "signal_late_call_refuted",
    "signal_late_call_partial"
   ],
   "note": "False of the code: a thread that tested the slot before the disconnect still calls it. Proved: only such a thread can."
  },
  {
   "property": "C23",
   "status": "proved",
   "theorems": [
    "signal_memory_safe",
    "signal_emission_ends",
    "signal_disconnect_ends",
    "signal_slot_lifetime"
   ],
   "note": "Each critical section under the signal mutex is one step. Swapping or moving a signal during its emission reaches std::terminate."
  },
  {
   "property": "C24",
   "status": "proved",
   "theorems": [
    "signal_count_exact",
    "signal_connected_exact"
   ],
   "note": ""
  },
  {
   "property": "C25",
   "status": "proved",
   "theorems": [
    "signal_skips_blocked",
    "signal_blockers_counted"
   ],
   "note": ""
  },
  {
   "property": "C26",
   "status": "proved",
   "theorems": [
    "signal_holds_no_dead_slot",
    "signal_dead_slots_freed",
    "signal_active_exact"
   ],
   "note": ""
  },
  {
   "property": "C27",
   "status": "partial",
   "theorems": [
    "signal_throw_partial",
    "signal_throw_releases_refuted",
    "signal_throw_leaks_forever"
   ],
   "note": "False in its last part: the reference on the current slot is leaked. The rest is proved."
  },
  {
   "property": "C28",
   "status": "proved",
   "theorems": [
    "signal_swap_carries_connections",
    "signal_move_carries_connections"
   ],
   "note": "With signal_slots_are_connected_ones, signal_library_step_effect and signal_emission_in_order for what disconnect and emission then do."
  },
  {
   "property": "C29",
   "status": "partial",
   "theorems": [
    "signal_disconnect_during_swap_refuted",
    "signal_disconnected_for_good"
   ],
   "note": "False of the code: the slot is connected again after disconnect returned. True when no disconnect runs while the signal is swapped or moved."
  },
  {
   "property": "C30",
   "status": "proved",
   "theorems": [
    "serialize_round_trip",
    "round_trip_nested_null_refuted"
   ],
   "note": "Conditions rt: names distinct, validators accept the value, fields left out of the document have a default, allow_missing with the old value, or are empty optionals; no null map entries when nulls are skipped; floats survive widening. The refuted theorem shows three conditions are needed."
  },
  {
   "property": "C31",
   "status": "proved",
   "theorems": [
    "dump_writes_serialized",
    "written_calls_determine_document"
   ],
   "note": "The calls made on the writer are those Accept makes on the serialized document; the writer itself is rapidjson."
  },
  {
   "property": "C32",
   "status": "proved",
   "theorems": [
    "integer_exact_or_refused"
   ],
   "note": "All widths 8-64, both signs."
  },
  {
   "property": "C33",
   "status": "proved",
   "theorems": [
    "missing_and_null_policy",
    "object_read_field_by_field"
   ],
   "note": ""
  },
  {
   "property": "C34",
   "status": "proved",
   "theorems": [
    "aliases_in_declared_order",
    "first_name_exists_and_is_unique"
   ],
   "note": "For deserialize and patch; absent names in missing_and_null_policy."
  },
  {
   "property": "C35",
   "status": "proved",
   "theorems": [
    "validators_pass_after_reading",
    "validators_pass_after_reading_array",
    "validity_is_kept",
    "validators_not_run_refuted"
   ],
   "note": "For ordinary fields. Validators on flatten and extra_fields members never run, and defaults are not validated: validators_not_run_refuted."
  },
  {
   "property": "C36",
   "status": "proved",
   "theorems": [
    "patch_keeps_unnamed",
    "patch_field_by_field",
    "patch_extra_fields",
    "patch_empty_object",
    "patch_own_document",
    "patch_idempotent",
    "deserialize_idempotent"
   ],
   "note": "Idempotence for documents without repeated names; own document under the conditions prt."
  },
  {
   "property": "C37",
   "status": "proved",
   "theorems": [
    "extra_fields_collected_and_written",
    "colliding_extra_key_refused",
    "no_duplicate_keys"
   ],
   "note": "Null entries are not written when nulls are skipped."
  },
  {
   "property": "C38",
   "status": "partial",
   "theorems": [
    "flattened_extra_fields_refuted",
    "flattened_extra_fields_never_preserved"
   ],
   "note": "False of the code: a flattened struct with extra_fields absorbs the fields of the outer struct on reading, and the result cannot be written again. Proved: no value whose outer struct writes a field of its own is preserved."
  },
  {
   "property": "C39",
   "status": "proved",
   "theorems": [
    "failed_request_has_no_effect"
   ],
   "note": "Value and modification history; also when an exception escapes. Every schema that compiles, every well-formed path, any validators."
  },
  {
   "property": "C40",
   "status": "proved",
   "theorems": [
    "history_keeps_validity",
    "successful_change_is_valid",
    "field_validators_bypassed_refuted"
   ],
   "note": "Validators are the validate_resource hooks of all parts. Serialization validators of a field are not run by a put at that field: field_validators_bypassed_refuted."
  },
  {
   "property": "C41",
   "status": "proved",
   "theorems": [
    "other_locations_unchanged",
    "other_paths_read_same",
    "other_paths_two_keys_refuted"
   ],
   "note": "Locations for every schema; what other paths read for schemas with at most one child key per collection. Later siblings of a deleted sequence element move (delete_removes_one)."
  },
  {
   "property": "C42",
   "status": "proved",
   "theorems": [
    "changes_visible_to_pollers",
    "alias_hides_change_refuted",
    "reset_hides_change_refuted"
   ],
   "note": "Over whole histories, for canonical paths, no delete of an optional collection, at most one child key per collection, fewer than 2^64-1 requests. The two expected failures are proved to be failures."
  },
  {
   "property": "C43",
   "status": "proved",
   "theorems": [
    "read_only_rejects_writes",
    "read_only_subtree_rejects_post",
    "success_needs_target",
    "read_only_indirect_refuted"
   ],
   "note": "Writes aimed at an ancestor do change read-only fields: read_only_indirect_refuted."
  },
  {
   "property": "C44",
   "status": "proved",
   "theorems": [
    "child_key_immutable",
    "other_child_key_refuted"
   ],
   "note": "For the key through which the element was addressed; with several child keys another one may change: other_child_key_refuted."
  },
  {
   "property": "C45",
   "status": "proved",
   "theorems": [
    "put_then_get_returns_it",
    "put_then_get_succeeds",
    "patch_then_get_returns_it",
    "put_twice_two_keys_refuted",
    "put_then_get_matcher_refuted",
    "put_then_get_extra_refuted"
   ],
   "note": "For schemas with at most one child key per collection whose matcher looks at the key only; the get succeeds when the addressed part has no extra_fields. Counterexamples outside these conditions."
  },
  {
   "property": "C46",
   "status": "proved",
   "theorems": [
    "post_appends_one",
    "delete_removes_one"
   ],
   "note": "The answer carries no name; the new element is addressable by its index or its key."
  },
  {
   "property": "C47",
   "status": "proved",
   "theorems": [
    "index_segment_decimal"
   ],
   "note": ""
  },
  {
   "property": "C48",
   "status": "proved",
   "theorems": [
    "enum_names_round_trip",
    "enum_fast_path_sound"
   ],
   "note": ""
  },
  {
   "property": "C49",
   "status": "proved",
   "theorems": [
    "enum_set_is_set"
   ],
   "note": ""
  },
  {
   "property": "C50",
   "status": "proved",
   "theorems": [
    "enum_range_visits_each_once"
   ],
   "note": ""
  },
  {
   "property": "C51",
   "status": "partial",
   "theorems": [
    "enum_iterator_order_inverted_refuted",
    "enum_iterator_distance_refuted",
    "enum_iterator_order_unsigned",
    "enum_iterator_order_unsigned64"
   ],
   "note": "False of the code. What the operators answer instead is proved for every underlying type."
  },
  {
   "property": "C52",
   "status": "partial",
   "theorems": [
    "closed_range_at_maximum_refuted",
    "closed_range_at_maximum_exactly"
   ],
   "note": "False of the code. Exactly which such ranges compile, and what they then do, is proved."
  },
  {
   "property": "C53",
   "status": "proved",
   "theorems": [
    "fnv1a_is_fnv1a_on_ascii",
    "fnv1a_of_signed_bytes",
    "fnv1a_last_bits_right",
    "fnv1a_non_ascii_refuted",
    "fnv1a_one_non_ascii_refuted",
    "fnv1a_overloads_agree"
   ],
   "note": "The claim for ASCII text; false for bytes above 127: the exact value for all bytes, and that one such byte always gives a different hash."
  },
  {
   "property": "C54",
   "status": "proved",
   "theorems": [
    "hsieh_is_super_fast_hash_on_ascii",
    "hsieh_reads_in_bounds",
    "hsieh_non_ascii_refuted",
    "hsieh_of_smeared_text",
    "hsieh_right_where_nothing_smears",
    "hsieh_undefined_where_shifted",
    "hsieh_byte_lost"
   ],
   "note": "With a condition on non-ASCII bytes; the exact value for all others, and exactly where C++17 leaves it undefined."
  },
  {
   "property": "C55",
   "status": "proved",
   "theorems": [
    "split_cuts_at_delimiters",
    "split_pieces_restore_text"
   ],
   "note": ""
  },
  {
   "property": "C56",
   "status": "proved",
   "theorems": [
    "stream_join_output",
    "outstream_joiner_output"
   ],
   "note": ""
  },
  {
   "property": "C57",
   "status": "proved",
   "theorems": [
    "zipped_stops_at_shortest",
    "zipped_unbounded_never_ends",
    "enumerated_pairs_with_index"
   ],
   "note": ""
  },
  {
   "property": "C58",
   "status": "proved",
   "theorems": [
    "exception_info_stack_per_tag"
   ],
   "note": ""
  },
  {
   "property": "C59",
   "status": "partial",
   "theorems": [
    "exception_info_copies_independent_partial",
    "exception_info_unset_newest_partial",
    "exception_info_copies_refuted",
    "exception_info_copies_exactly"
   ],
   "note": "True while values are only added, or the newest is removed; false for unset of older values and for writes through get. Every history is proved to behave as objects that share entries."
  },
  {
   "property": "C60",
   "status": "partial",
   "theorems": [
    "file_view_whole_file_partial",
    "file_view_mmap_failure_refuted",
    "file_view_mapping_failed_exactly"
   ],
   "note": "True unless mmap fails; then false, and what happens instead is proved exactly."
  },
  {
   "property": "C61",
   "status": "partial",
   "theorems": [
    "defer_exactly_once_partial",
    "defer_throwing_action_refuted",
    "defer_exactly"
   ],
   "note": "Proved when no deferred action throws; what happens with throwing actions is proved exactly: actions run in reverse order up to the first that throws, which ends the program."
  },
  {
   "property": "C62",
   "status": "partial",
   "theorems": [
    "allocation_bounded_by_input_refuted",
    "allocation_bounded_when_read"
   ],
   "note": "False of the code (counterexample proved). Proved: a read that succeeds never asked for more elements than the buffer has bytes; a failing one for at most 2^32-1."
  },
  {
   "property": "C63",
   "status": "proved",
   "theorems": [
    "facade_operators_follow_distance"
   ],
   "note": ""
  },
  {
   "property": "C64",
   "status": "partial",
   "theorems": [
    "reversed_range_rejected_refuted",
    "half_open_range_accepted_exactly"
   ],
   "note": "False of the code. Exactly which ranges the assertion accepts is proved."
  },
  {
   "property": "C65",
   "status": "partial",
   "theorems": [
    "split_literal_refuted",
    "split_literal_exactly",
    "split_literal_delimiters"
   ],
   "note": "False of the code. How the pieces of a literal differ from those of the string is proved for every text."
  },
  {
   "property": "C66",
   "status": "partial",
   "theorems": [
    "outstream_joiner_reuse_refuted",
    "outstream_joiner_reuse_exactly"
   ],
   "note": "False of the code. The output of any sequence of algorithms is proved: each joined by itself."
  },
  {
   "property": "C67",
   "status": "proved",
   "theorems": [
    "exception_info_memory_safe"
   ],
   "note": ""
  },
  {
   "property": "C68",
   "status": "proved",
   "theorems": [
    "file_view_releases"
   ],
   "note": ""
  },
  {
   "property": "C69",
   "status": "partial",
   "theorems": [
    "file_view_copy_refuted",
    "file_view_copies_exactly"
   ],
   "note": "False of the code. Proved: n copies unmap n times."
  },
  {
   "property": "C70",
   "status": "partial",
   "theorems": [
    "file_view_windows_size_failure_refuted",
    "file_view_throws_exactly",
    "file_view_windows_throws_exactly"
   ],
   "note": "False of the code. Exactly which answers make the constructor throw is proved, for both systems."
  },
  {
   "property": "C71",
   "status": "proved",
   "theorems": [
    "signal_connect_effect",
    "signal_library_step_effect",
    "signal_other_operations_effect"
   ],
   "note": ""
  },
  {
   "property": "C72",
   "status": "proved",
   "theorems": [
    "signal_no_leak_without_throw"
   ],
   "note": ""
  },
  {
   "property": "C73",
   "status": "proved",
   "theorems": [
    "signal_drop_disconnects_all"
   ],
   "note": ""
  },
  {
   "property": "C74",
   "status": "partial",
   "theorems": [
    "signal_destroy_during_disconnect_refuted",
    "signal_memory_safe"
   ],
   "note": "False of the code: witness schedule reaches a use of a destroyed signal. True when no disconnect runs while the signal is destroyed."
  },
  {
   "property": "C75",
   "status": "proved",
   "theorems": [
    "reading_stays_in_type"
   ],
   "note": ""
  },
  {
   "property": "C76",
   "status": "proved",
   "theorems": [
    "reading_overwrites"
   ],
   "note": ""
  },
  {
   "property": "C77",
   "status": "proved",
   "theorems": [
    "serialize_succeeds_iff",
    "clashing_names_refused"
   ],
   "note": ""
  },
  {
   "property": "C78",
   "status": "proved",
   "theorems": [
    "requests_never_undefined"
   ],
   "note": ""
  },
  {
   "property": "C79",
   "status": "proved",
   "theorems": [
    "get_answers_the_value",
    "missing_target_not_found"
   ],
   "note": ""
  },
  {
   "property": "C80",
   "status": "proved",
   "theorems": [
    "reader_accepts_exactly",
    "wire_format_unambiguous"
   ],
   "note": ""
  },
  {
   "property": "C81",
   "status": "proved",
   "theorems": [
    "span_and_peek_exact",
    "left_and_empty_exact"
   ],
   "note": ""
  },
  {
   "property": "C82",
   "status": "proved",
   "theorems": [
    "failed_read_leaves"
   ],
   "note": ""
  },
  {
   "property": "C83",
   "status": "proved",
   "theorems": [
    "file_view_windows_whole_file",
    "file_view_windows_releases"
   ],
   "note": ""
  },
  {
   "property": "C84",
   "status": "proved",
   "theorems": [
    "document_exact"
   ],
   "note": "doc is a relation that uses no helper of the model"
  },
  {
   "property": "C85",
   "status": "proved",
   "theorems": [
    "reading_exact"
   ],
   "note": "reads is a relation on the object before and after and the exception"
  },
  {
   "property": "C86",
   "status": "proved",
   "theorems": [
    "patching_exact"
   ],
   "note": "patched is a relation on the object before and after and the exception"
  },
  {
   "property": "C87",
   "status": "proved",
   "theorems": [
    "reading_exceptions"
   ],
   "note": ""
  },
  {
   "property": "C88",
   "status": "proved",
   "theorems": [
    "requests_exact",
    "histories_exact"
   ],
   "note": "settled has one relation for each method"
  },
  {
   "property": "C89",
   "status": "proved",
   "theorems": [
    "reports_exact",
    "unrelated_not_reported"
   ],
   "note": "for histories of fewer requests than generations"
  },
  {
   "property": "C90",
   "status": "proved",
   "theorems": [
    "enum_iterator_moves_by_positions"
   ],
   "note": "ranges whose end is a value of the type"
  },
  {
   "property": "C91",
   "status": "partial",
   "theorems": [
    "enum_in_range_of_integer_partial",
    "enum_in_range_of_integer_refuted",
    "enum_in_range_of_integer_exactly"
   ],
   "note": "Holds when the comparison is signed or nothing is negative; false otherwise, and the exact answer of the unsigned comparison is proved."
  },
  {
   "property": "C92",
   "status": "proved",
   "theorems": [
    "enum_bit_operators",
    "enum_shift_operators",
    "enum_increment_operators"
   ],
   "note": ""
  },
  {
   "property": "C93",
   "status": "proved",
   "theorems": [
    "yaml_integer_exact_or_refused",
    "numerals_unambiguous"
   ],
   "note": "the numerals of the C++ stream extraction yaml-cpp uses"
  },
  {
   "property": "C94",
   "status": "proved",
   "theorems": [
    "yaml_booleans"
   ],
   "note": "the table of yaml-cpp convert<bool>"
  },
  {
   "property": "C95",
   "status": "proved",
   "theorems": [
    "yaml_integer_written",
    "decimal_numerals_unique"
   ],
   "note": ""
  },
  {
   "property": "C96",
   "status": "proved",
   "theorems": [
    "formats_write_the_same"
   ],
   "note": "values without float: a float has fewer digits in YAML than the double JSON makes of it"
  },
  {
   "property": "C97",
   "status": "proved",
   "theorems": [
    "formats_read_the_same"
   ],
   "note": "types without floating point"
  },
  {
   "property": "C98",
   "status": "partial",
   "theorems": [
    "yaml_leading_zero_refuted",
    "yaml_reads_more_refuted",
    "yaml_digits_exactly"
   ],
   "note": "Both parts are false. How every text of digits is read is proved."
  },
  {
   "property": "C99",
   "status": "proved",
   "theorems": [
    "reports_are_the_exceptions",
    "read_report_right",
    "patch_report_right"
   ],
   "note": "the names of types, the messages of validators and those of yaml-cpp are left open"
  },
  {
   "property": "C100",
   "status": "proved",
   "theorems": [
    "report_text",
    "report_text_first_zero",
    "report_text_unambiguous"
   ],
   "note": ""
  },
  {
   "property": "C101",
   "status": "partial",
   "theorems": [
    "tuple_position_reported_refuted",
    "field_reported_by_key_refuted",
    "report_text_injective_refuted",
    "report_text_complete_refuted",
    "report_text_unambiguous"
   ],
   "note": "All four parts are false; the text is unambiguous when no name has a new line or a zero."
  },
  {
   "property": "C102",
   "status": "proved",
   "theorems": [
    "attribute_queries_exact",
    "derived_attribute_found_refuted"
   ],
   "note": "the last part of the statement is refuted as expected"
  },
  {
   "property": "C103",
   "status": "proved",
   "theorems": [
    "filtered_view_agrees",
    "has_any_attribute_exact"
   ],
   "note": ""
  },
  {
   "property": "C104",
   "status": "proved",
   "theorems": [
    "fields_in_order"
   ],
   "note": ""
  },
  {
   "property": "C105",
   "status": "partial",
   "theorems": [
    "no_member_twice",
    "member_visited_once_refuted",
    "every_field_has_value_refuted",
    "member_visits_exactly"
   ],
   "note": "Holds without virtual bases, false with them; how often members are visited and which fields have no value is proved exactly."
  },
  {
   "property": "C106",
   "status": "proved",
   "theorems": [
    "attributes_refine",
    "attributes_describable",
    "all_aliases_read_refuted",
    "derived_default_refuted"
   ],
   "note": "the two parts expected to fail are refuted"
  },
  {
   "property": "C107",
   "status": "proved",
   "theorems": [
    "name_checks_exact",
    "name_checks_distinct",
    "checked_names_refuted"
   ],
   "note": ""
  },
  {
   "property": "C108",
   "status": "proved",
   "theorems": [
    "bits_mean",
    "bits_round_trip",
    "float_written_exactly",
    "float_survives",
    "float_read_nearest",
    "integer_read_nearest",
    "integer_read_exactly",
    "integer_kept_refuted",
    "nan_kept_refuted"
   ],
   "note": "the two parts expected to fail are refuted"
  },
  {
   "property": "C109",
   "status": "proved",
   "theorems": [
    "limits_exact",
    "mixed_comparison_exact",
    "empty_against_limits",
    "value_read_in_range",
    "in_range_passes_refuted",
    "out_of_range_refused_refuted",
    "nan_refused_refuted"
   ],
   "note": "without the condition on the conversions it is refuted"
  },
  {
   "property": "C110",
   "status": "proved",
   "theorems": [
    "array_built_as_tuple",
    "object_built_as_struct",
    "names_survive_refuted",
    "repeated_name_refuted",
    "done_again_refuted"
   ],
   "note": "the parts expected to fail are refuted"
  },
  {
   "property": "C111",
   "status": "proved",
   "theorems": [
    "object_extracted_as_struct",
    "array_extracted_as_struct",
    "built_object_extracted",
    "built_array_extracted",
    "any_name_extracted_refuted",
    "index_grows_refuted"
   ],
   "note": "array reading: no more elements than calls, fewer than 2^32 calls; the parts expected to fail are refuted"
  },
  {
   "property": "C112",
   "status": "proved",
   "theorems": [
    "diagnostic_lines",
    "diagnostic_tells_values",
    "described_through_pointer",
    "info_only_adds",
    "all_values_shown_refuted",
    "values_told_refuted",
    "described_everywhere_refuted"
   ],
   "note": "history theorem for histories without copies, or with copies and no removal; the parts expected to fail are refuted"
  },
  {
   "property": "C113",
   "status": "proved",
   "theorems": [
    "library_writes_unchanged",
    "library_reads_unchanged",
    "custom_round_trip",
    "custom_dump_agrees",
    "no_guessed_patch",
    "patched_by_document_refuted",
    "patch_overload_called_refuted",
    "any_tag_compiles_refuted",
    "half_customized_refuted"
   ],
   "note": "reflected structs around customized types: fields without attributes; the parts expected to fail are refuted"
  },
  {
   "property": "C114",
   "status": "proved",
   "theorems": [
    "signal_conflicts_ordered",
    "signal_no_race",
    "every_run_has_a_record",
    "every_record_has_a_run",
    "recording_changes_nothing",
    "every_change_is_recorded",
    "happens_before_strict",
    "release_order_needed"
   ],
   "note": "atomics read the latest value of the interleaving; a region under the mutex is one step"
  },
  {
   "property": "C115",
   "status": "proved",
   "theorems": [
    "dump_text_means",
    "serialized_integers_held",
    "dump_text_utf8",
    "dump_nan_refuted",
    "dump_nan_in_array_refuted",
    "dump_long_string_refuted"
   ],
   "note": "the text of a double is a parameter; the parts expected to fail are refuted"
  },
  {
   "property": "C116",
   "status": "proved",
   "theorems": [
    "parse_accepts_exactly",
    "parse_plain_text",
    "parse_never_undefined",
    "text_determines_document",
    "parse_keeps_utf8",
    "parse_zero_refuted",
    "parse_mark_refuted"
   ],
   "note": "the double of a numeral is a parameter; running out of stack on deep nesting is not modelled; the parts expected to fail are refuted"
  },
  {
   "property": "C117",
   "status": "proved",
   "theorems": [
    "text_round_trip"
   ],
   "note": "doubles: under the condition that their text is read as the same double"
  },
  {
   "property": "C118",
   "status": "proved",
   "theorems": [
    "number_read_total",
    "number_read_nearest",
    "number_digits_dropped",
    "number_digits_needed",
    "number_nearest_refuted",
    "number_in_range_refuted"
   ],
   "note": "the parts expected to fail are refuted: 0.09090909090909091 and 1e-23 are misread by one unit in the last place, 0e309 is rejected"
  },
  {
   "property": "C119",
   "status": "proved",
   "theorems": [
    "few_digits_kept",
    "few_digits_round_trip",
    "double_round_trip_refuted"
   ],
   "note": "the text of a double is a parameter; the part expected to fail is refuted with 1.0/11"
  },
  {
   "property": "C120",
   "status": "proved",
   "theorems": [
    "enum_macro_expands",
    "enum_seq_macro_expands",
    "macro_expansion_unique",
    "documented_sequence_refuted",
    "macro_name_kept_refuted"
   ],
   "note": "the macros of Boost.Preprocessor that kl uses are taken from its documentation; the parts expected to fail are refuted"
  },
  {
   "property": "C121",
   "status": "proved",
   "theorems": [
    "struct_macro_expands",
    "struct_friend_macro_expands",
    "derived_macro_expands",
    "derived_friend_macro_expands",
    "attribute_whole_refuted"
   ],
   "note": "the macros of Boost.Preprocessor that kl uses are taken from its documentation; the part expected to fail is refuted"
  },
  {
   "property": "C122",
   "status": "proved",
   "theorems": [
    "accessor_macro_expands",
    "accessor_named_macro_expands",
    "defer_macro_expands",
    "defer_names_differ"
   ],
   "note": "__COUNTER__ is a parameter"
  },
  {
   "property": "C123",
   "status": "proved",
   "theorems": [
    "filter_keeps",
    "filter_any",
    "filter_pack",
    "push_front_adds",
    "filter_keeps_order_refuted"
   ],
   "note": "the choice among partial specializations is part of the model; the part expected to fail is refuted, filter_keeps says what happens instead"
  },
  {
   "property": "C124",
   "status": "proved",
   "theorems": [
    "at_type_nth",
    "at_type_outside",
    "type_pack_counts",
    "type_pack_extracts"
   ],
   "note": ""
  },
  {
   "property": "C125",
   "status": "proved",
   "theorems": [
    "func_traits_describes",
    "func_traits_only",
    "func_traits_noexcept_refuted",
    "func_traits_noexcept_function_refuted",
    "func_traits_const_pointer_refuted"
   ],
   "note": "which class declares the call operator is a parameter; the part expected to fail is refuted"
  },
  {
   "property": "C126",
   "status": "proved",
   "theorems": [
    "is_same_all",
    "is_same_two_at_least",
    "remove_cvref_removes",
    "enable_if_all",
    "enable_if_not_all",
    "member_pointer_describes"
   ],
   "note": "std::conjunction and the other templates of the standard are modelled by what the standard says of them"
  },
  {
   "property": "C127",
   "status": "proved",
   "theorems": [
    "match_dispatches",
    "match_valueless",
    "own_handler_wins",
    "generic_handler_wins",
    "least_effort_handler",
    "nearest_base_handler",
    "handler_order",
    "function_handler",
    "match_call",
    "match_needs_handlers",
    "auto_ref_handler",
    "const_auto_ref_handler",
    "const_ref_handler_refuted",
    "mutable_handler_refuted",
    "missing_handler_refuted",
    "rvalue_handler_refuted",
    "reference_result_refuted"
   ],
   "note": "overload resolution for one argument as the standard defines it, without enums, pointers and ranking of user-defined conversions; the parts expected to fail are refuted"
  },
  {
   "property": "C128",
   "status": "proved",
   "theorems": [
    "range_of_container",
    "range_of_array",
    "range_of_range",
    "range_converts",
    "range_visits",
    "range_size_counts",
    "range_conversion_refuted",
    "range_without_cbegin_refuted",
    "range_swapped_refuted"
   ],
   "note": "the members of container types are parameters; the parts expected to fail are refuted"
  },
  {
   "property": "C129",
   "status": "proved",
   "theorems": [
    "types_written_as_meant",
    "types_written_exactly",
    "pointers_written_as_true",
    "reflected_container_not_written",
    "derived_string_is_sequence",
    "json_numbers_written_refuted",
    "yaml_nodes_written_refuted"
   ],
   "note": "overload resolution over a model of types; classes have one base and a list of conversions; customized functions found by ADL are C113"
  },
  {
   "property": "C130",
   "status": "proved",
   "theorems": [
    "kinds_agree",
    "converting_struct_not_serialized",
    "yaml_views_read_back_refuted",
    "json_streams_and_trees_refuted",
    "converting_classes_agree_refuted"
   ],
   "note": "same model as C129"
  },
  {
   "property": "C131",
   "status": "proved",
   "theorems": [
    "slots_get_arguments",
    "emission_as_delivered",
    "reference_collects_changes",
    "const_arguments_stay_refuted"
   ],
   "note": "slots that are connected and do not throw; which slots are called is C20"
  },
  {
   "property": "C132",
   "status": "proved",
   "theorems": [
    "emission_compiles",
    "emission_copies",
    "unique_values_emitted_refuted",
    "rvalue_signals_emitted_refuted"
   ],
   "note": "parameters and arguments of the same type up to references"
  },
  {
   "property": "C133",
   "status": "proved",
   "theorems": [
    "owners_safe",
    "live_iff_reachable",
    "reachable_kept",
    "all_slots_freed",
    "scoped_owned_cut",
    "own_connection_freed_refuted",
    "disconnected_function_freed_refuted"
   ],
   "note": "one thread; functions own connections directly; destruction during emission left out"
  },
  {
   "property": "C134",
   "status": "proved",
   "theorems": [
    "handles_never_wait",
    "quiet_programs_run",
    "slots_taken_away",
    "signal_destroyed",
    "emission_ended",
    "layered_programs_run",
    "later_slot_owned_deadlocks",
    "owner_cut_in_emission_deadlocks",
    "programs_run_refuted"
   ],
   "note": "same model as C133"
  },
  {
   "property": "C135",
   "status": "proved",
   "theorems": [
    "throw_with_info_compiles",
    "thrown_with_info_caught",
    "first_handler_taken",
    "thrown_with_info_same_handler",
    "rethrown_whole_caught",
    "rethrown_caught_refuted"
   ],
   "note": "no class is its own base; the classes of the library are as declared"
  },
  {
   "property": "C136",
   "status": "proved",
   "theorems": [
    "info_found_by_reference",
    "info_found_in_handlers",
    "handlers_bind",
    "no_info_without",
    "info_found_refuted",
    "rethrown_info_kept_refuted",
    "described_by_reference",
    "described_by_pointer",
    "described_without_virtual_functions",
    "others_described_by_pointer",
    "pointer_as_reference_refuted"
   ],
   "note": "dynamic_cast as the standard defines it; texts are in C112"
  },
  {
   "property": "C137",
   "status": "proved",
   "theorems": [
    "contents_of_thrown",
    "contents_kept_without_virtual",
    "contents_kept_refuted"
   ],
   "note": "copy constructors of user classes copy member by member"
  },
  {
   "property": "C138",
   "status": "proved",
   "theorems": [
    "new_views_show_the_document",
    "new_object_is_what_the_document_says",
    "deserialization_succeeds_iff_it_fits",
    "patching_succeeds_iff_it_fits",
    "patching_keeps_unnamed_members",
    "deserialization_leaves_other_documents",
    "patching_leaves_other_documents",
    "assignment_leaves_other_documents",
    "view_shows_its_source",
    "reused_view_rewrites_its_node",
    "reused_view_erases_its_node",
    "view_of_a_part_given_the_whole",
    "second_deserialization_leaves_the_first_document_refuted",
    "patching_leaves_the_first_document_refuted",
    "assignment_leaves_both_documents_refuted"
   ],
   "note": "YAML::Node assignment as yaml-cpp implements it (AssignNode, set_ref)"
  },
  {
   "property": "C139",
   "status": "proved",
   "theorems": [
    "handles_name_connect_calls",
    "equal_handles_same_call",
    "handles_ordered",
    "order_of_handles_transitive",
    "equal_handles_equal_hashes",
    "keys_keep_their_order",
    "slots_live_while_in_use",
    "copies_stay_equal_refuted"
   ],
   "note": "one thread, functions that do nothing to handles; std::less and std::hash of pointers"
  },
  {
   "property": "C140",
   "status": "proved",
   "theorems": [
    "slots_leave_by_cuts",
    "cut_slots_never_called_again",
    "scoped_replaced_disconnects",
    "scoped_assignment_disconnects_refuted",
    "released_connections_stay"
   ],
   "note": "one thread; emissions that are not interrupted (C20-C29 have the others)"
  },
  {
   "property": "C141",
   "status": "proved",
   "theorems": [
    "documents_outlive_objects",
    "trees_read_while_kept",
    "trees_dangle_after",
    "serialization_defined_exactly",
    "documents_outlive_objects_refuted",
    "trees_outlive_contexts_refuted",
    "empty_views_serialize_refuted"
   ],
   "note": "RapidJSON constructors and copies as documented in the model"
  },
  {
   "property": "C142",
   "status": "proved",
   "theorems": [
    "parsed_documents_own_their_text",
    "deserialization_defined",
    "deserialized_is_what_documents_say",
    "owning_objects_outlive_documents",
    "borrowing_objects_need_documents",
    "borrowing_objects_survive_moves",
    "borrowing_objects_outlive_documents_refuted",
    "borrowing_roots_survive_moves_refuted"
   ],
   "note": "values and attributes are in C30-C50 and others; here only where the bytes are"
  },
  {
   "property": "C143",
   "status": "proved",
   "theorems": [
    "lookup_innermost",
    "enum_operator_called",
    "enabled_operator_found_unless_hidden",
    "enabled_operator_found_everywhere_refuted",
    "shifts_hidden_in_kl",
    "using_declaration_suffices",
    "own_operator_called"
   ],
   "note": "Inline namespaces, friends and operators that are members are not modelled; other functions are not templates."
  },
  {
   "property": "C144",
   "status": "proved",
   "theorems": [
    "directive_beside_traits",
    "streams_beside_operators",
    "shifts_by_wide_numbers_ambiguous",
    "directive_harmless_refuted"
   ],
   "note": "Enums are taken to promote to int."
  },
  {
   "property": "C145",
   "status": "proved",
   "theorems": [
    "accessors_read_like_members",
    "accessors_patched_like_members",
    "accessors_written_like_members",
    "accessors_written_need_their_places"
   ],
   "note": "A struct with accessors inside another one, accessors that throw or change the object and references to something outside the object are not modelled."
  },
  {
   "property": "C146",
   "status": "proved",
   "theorems": [
    "accessors_round_trip",
    "last_accessor_wins",
    "accessors_round_trip_any_order_refuted",
    "accessors_keep_documents_refuted",
    "accessor_validators_see_what_was_read_refuted"
   ],
   "note": "Conditions on single values as in C30."
  },
  {
   "property": "C147",
   "status": "proved",
   "theorems": [
    "conflict_says_why",
    "reason_is_said"
   ],
   "note": "For schemas and objects as in C39-C47."
  },
  {
   "property": "C148",
   "status": "proved",
   "theorems": [
    "quiet_validators_are_verdicts",
    "quiet_failure_has_no_effect",
    "quiet_history_keeps_types",
    "quiet_other_locations_unchanged",
    "quiet_read_only_rejects_writes",
    "quiet_child_key_immutable"
   ],
   "note": "A validator sees its own part and other state, not other parts of the object."
  },
  {
   "property": "C149",
   "status": "proved",
   "theorems": [
    "tidying_requests",
    "tidying_history",
    "tidying_keeps_keys",
    "refused_request_changes_siblings_refuted",
    "tidied_duplicates_refuted"
   ],
   "note": "Single values: everything that is not an optional, a struct or a collection."
  },
  {
   "property": "C150",
   "status": "proved",
   "theorems": [
    "refusals_are_silent",
    "not_allowed_runs_nothing",
    "refused_target_restored",
    "refused_delete_restored",
    "refused_post_removes_another_refuted",
    "rollback_undefined_refuted",
    "validator_changes_unannounced_refuted",
    "validator_changes_key_refuted"
   ],
   "note": "Validators that make a container move its elements to other storage during a request about one of them are not modelled."
  },
  {
   "property": "C151",
   "status": "proved",
   "theorems": [
    "extraction_after_failure",
    "extraction_keeps_refuted",
    "read_in_user_code",
    "read_of_members"
   ],
   "note": "The witness of the second theorem also shows that read leaves the destination alone."
  },
  {
   "property": "C152",
   "status": "proved",
   "theorems": [
    "any_reader_stays_inside"
   ],
   "note": "User code is a tree of calls; what it does besides calling the reader is not modelled. Moves, copies and allocation do not throw."
  },
  {
   "property": "C153",
   "status": "proved",
   "theorems": [
    "any_writer_stays_inside"
   ],
   "note": "As C152; values of library types passed on are values of their types."
  },
  {
   "property": "C154",
   "status": "proved",
   "theorems": [
    "vector_of_users",
    "map_of_users",
    "set_of_users"
   ],
   "note": "Keys are ordered as their values are. Vectors of trivially copyable elements are read at once and are in C80."
  },
  {
   "property": "C155",
   "status": "proved",
   "theorems": [
    "vector_of_users",
    "map_of_users",
    "set_of_users",
    "throwing_keeps",
    "throwing_pair",
    "throwing_is_clean_refuted"
   ],
   "note": ""
  },
  {
   "property": "C156",
   "status": "proved",
   "theorems": [
    "adapters_round_trip",
    "members_are_adapters"
   ],
   "note": "Read into a fresh object."
  },
  {
   "property": "C157",
   "status": "proved",
   "theorems": [
    "dump_ends_like_serialize"
   ],
   "note": ""
  },
  {
   "property": "C158",
   "status": "proved",
   "theorems": [
    "priority_takes_highest",
    "validators_always_compile",
    "matchers_always_compile"
   ],
   "note": ""
  },
  {
   "property": "C159",
   "status": "proved",
   "theorems": [
    "member_validator_first",
    "called_validators_fit",
    "nearest_validator_called",
    "nearest_const_validator_called",
    "template_validator_called",
    "optional_template_called",
    "twin_validators_not_called",
    "declared_validator_runs_refuted",
    "inherited_member_runs_refuted",
    "inherited_validator_runs_refuted"
   ],
   "note": "Functions whose parameters are references, const references or values of named types, of any type, or of any optional."
  },
  {
   "property": "C160",
   "status": "proved",
   "theorems": [
    "validate_levels",
    "validate_outside_first",
    "reference_validators_run_once",
    "validators_run_once_refuted"
   ],
   "note": ""
  },
  {
   "property": "C161",
   "status": "proved",
   "theorems": [
    "called_matchers_fit",
    "const_matcher_called",
    "const_template_matcher_called",
    "twin_matchers_not_called",
    "declared_matcher_used_refuted"
   ],
   "note": ""
  },
  {
   "property": "C162",
   "status": "proved",
   "theorems": [
    "converting_class_dumped",
    "number_rather_than_pointer",
    "converting_class_not_read",
    "derived_class_written_as_base"
   ],
   "note": "conversions of the promotions of enumerations and classes derived from rapidjson::Value are not covered"
  },
  {
   "property": "C163",
   "status": "proved",
   "theorems": [
    "facade_refines_positions",
    "stashing_subscript_undefined",
    "boost_distance_reversed",
    "subscript_is_plus_refuted"
   ],
   "note": "elements are not written to through iterators; the part expected to fail is refuted"
  },
  {
   "property": "C164",
   "status": "proved",
   "theorems": [
    "facade_operators",
    "going_back",
    "value_type_const_iff",
    "arrow_like_star_refuted",
    "value_type_unqualified_refuted"
   ],
   "note": "the parts expected to fail are refuted"
  },
  {
   "property": "C165",
   "status": "proved",
   "theorems": [
    "patched_with_what_is_read",
    "derived_patched_as_read_refuted"
   ],
   "note": "the part expected to fail is refuted; default constructors of what optionals hold are not looked at"
  },
  {
   "property": "C166",
   "status": "proved",
   "theorems": [
    "writable_types",
    "readable_types",
    "streamed_spans",
    "elements_made",
    "vectors_of_simple_types_refuted",
    "written_types_read_refuted",
    "read_types_written_refuted",
    "elements_read_refuted"
   ],
   "note": "the parts expected to fail are refuted; all adapter headers included, default comparisons and allocators"
  },
  {
   "property": "C167",
   "status": "proved",
   "theorems": [
    "headers_included",
    "programs_link",
    "headers_anywhere_refuted"
   ],
   "note": "the part expected to fail is refuted; units define no functions of the names of the library"
  },
  {
   "property": "C168",
   "status": "proved",
   "theorems": [
    "new_as_value_initialized",
    "unread_scalars_returned",
    "new_objects_typed",
    "new_given_by_document_refuted"
   ],
   "note": "the part expected to fail is refuted; user-provided constructors are not modelled"
  },
  {
   "property": "C169",
   "status": "proved",
   "theorems": [
    "extra_keys_owned",
    "extra_keys_viewed",
    "extra_keys_compared",
    "patched_keys_owned",
    "patched_keys_viewed",
    "extra_keys_usable_refuted"
   ],
   "note": "the part expected to fail is refuted; exceptions are not told apart"
  },
  {
   "property": "C170",
   "status": "proved",
   "theorems": [
    "computed_fields_read",
    "computed_fields_answered",
    "computed_elements_undefined",
    "computed_fields_defined",
    "paths_answered_refuted"
   ],
   "note": "the part expected to fail is refuted; optionals and maps returned by value do not compile and throw in the model"
  },
  {
   "property": "C171",
   "status": "proved",
   "theorems": [
    "current_while_invoked",
    "current_at_end_defined",
    "current_at_end_answers",
    "current_at_throw",
    "current_quiet_defined",
    "current_outside_refuted"
   ],
   "note": "the part expected to fail is refuted; one thread; the reference a throwing slot keeps may be dropped in the model"
  },
  {
   "property": "C172",
   "status": "proved",
   "theorems": [
    "put_ends",
    "reset_ends",
    "remove_ends",
    "post_ends",
    "familiar_paths_safe",
    "requests_all_or_nothing_refuted"
   ],
   "note": "the parts expected to fail are refuted; validators do not change what they look at"
  },
  {
   "property": "C173",
   "status": "proved",
   "theorems": [
    "flags_round_trip",
    "flags_read_alike",
    "flags_defined",
    "flags_proper",
    "flags_checked_refuted"
   ],
   "note": "the part expected to fail is refuted; keys have no bool in containers"
  },
  {
   "property": "C174",
   "status": "proved",
   "theorems": [
    "layouts",
    "cast_means_its_bytes",
    "cast_there_and_back",
    "cast_there_and_back_refuted",
    "raw_round_trip",
    "raw_bytes_known",
    "raw_bytes_refuted"
   ],
   "note": "the part expected to fail is refuted; the layout of structures is that of the usual ABIs, without bit fields and bases"
  },
  {
   "property": "C175",
   "status": "proved",
   "theorems": [
    "views_of_variables_safe",
    "loops_exact",
    "variables_exact",
    "zip_assertion_suffices",
    "views_refuted"
   ],
   "note": "the part expected to fail is refuted; no assignment to variables"
  },
  {
   "property": "C176",
   "status": "proved",
   "theorems": [
    "every_place_has_a_text",
    "joined_read_again",
    "joined_read_again_refuted",
    "children_addressable",
    "posted_elements_addressable_refuted"
   ],
   "note": "the parts expected to fail are refuted; the exact conditions are proved"
  },
  {
   "property": "C177",
   "status": "proved",
   "theorems": [
    "unfixed_cast",
    "unfixed_bit_operators",
    "unfixed_complement",
    "unfixed_complement_refuted",
    "unfixed_increment",
    "unfixed_shift_right",
    "unfixed_shift_left",
    "unfixed_read",
    "unfixed_read_safe",
    "unfixed_read_refuted",
    "unfixed_loops",
    "unfixed_max",
    "unfixed_reflected",
    "unfixed_reflected_exact",
    "unfixed_reflected_refuted"
   ],
   "note": "the parts expected to fail are refuted; the exact conditions are proved. << is stated where the built-in shift gives the product; closed ranges below the largest number of the underlying type"
  },
  {
   "property": "C178",
   "status": "proved",
   "theorems": [
    "memory_refines",
    "memory_requests",
    "memory_not_needed",
    "memory_pieces",
    "memory_refused",
    "memory_again",
    "memory_refused_refuted"
   ],
   "note": "the parts expected to fail are refuted; reserve is taken not to shrink"
  },
  {
   "property": "C179",
   "status": "proved",
   "theorems": [
    "own_text",
    "own_text_views",
    "own_text_refuted",
    "own_text_first"
   ],
   "note": "the part expected to fail is refuted; the behaviour of the string buffer is that of common libraries, the standard leaves it undefined"
  },
  {
   "property": "C180",
   "status": "proved",
   "theorems": [
    "moved_to",
    "moved_set_again",
    "moved_empty",
    "moved_from_stale",
    "moved_refuted"
   ],
   "note": "the part expected to fail is refuted for libraries whose vector keeps its elements; strings moved from are taken to be empty"
  }
 ]
}