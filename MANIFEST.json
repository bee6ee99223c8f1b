{
 "claims": [
  {
   "property": "C01",
   "status": "proved",
   "theorems": [
    "round_trip",
    "round_trip_same_buffer",
    "round_trip_call",
    "round_trip_unsized",
    "round_trip_span",
    "round_trip_rest_view"
   ],
   "note": ""
  },
  {
   "property": "C02",
   "status": "proved",
   "theorems": [
    "out_wire_format",
    "out_bytes_independent"
   ],
   "note": "bitsets need zero bytes at the destination (see C26)"
  },
  {
   "property": "C03",
   "status": "proved",
   "theorems": [
    "out_frame"
   ],
   "note": ""
  },
  {
   "property": "C04",
   "status": "proved",
   "theorems": [
    "out_fixed_iff_fits"
   ],
   "note": ""
  },
  {
   "property": "C05",
   "status": "proved",
   "theorems": [
    "out_growable_outcomes"
   ],
   "note": ""
  },
  {
   "property": "C06",
   "status": "proved",
   "theorems": [
    "enlarge_for_safe",
    "enlarge_for_any_request",
    "enlarge_shrinking_refuted",
    "enlarge_unchecked_refuted"
   ],
   "note": "the two refutations are the failure cases named in the statement"
  },
  {
   "property": "C07",
   "status": "proved",
   "theorems": [
    "out_call_fits",
    "out_call_keeps_written",
    "out_call_no_growth",
    "out_call_overgrowth_refuted"
   ],
   "note": "writing inside existing data can leave extra zero bytes: out_call_overgrowth_refuted"
  },
  {
   "property": "C08",
   "status": "proved",
   "theorems": [
    "out_alloc_limit",
    "enlarge_over_limit"
   ],
   "note": ""
  },
  {
   "property": "C09",
   "status": "proved",
   "theorems": [
    "in_memory_safe",
    "in_no_stack_exhaustion",
    "in_call_memory_safe",
    "in_bool_refuted",
    "in_position_beyond_ub"
   ],
   "note": "bool bytes other than 0/1 are undefined behaviour: in_bool_refuted"
  },
  {
   "property": "C10",
   "status": "proved",
   "theorems": [
    "in_position_and_target_valid"
   ],
   "note": ""
  },
  {
   "property": "C11",
   "status": "proved",
   "theorems": [
    "in_alloc_limit",
    "in_over_limit"
   ],
   "note": "the limit does not apply to associative containers, see in_limit_assoc"
  },
  {
   "property": "C12",
   "status": "proved",
   "theorems": [
    "in_consumed_bytes_only",
    "in_appended",
    "in_rest_view_refuted"
   ],
   "note": "unsized views depend on the rest of the buffer: in_rest_view_refuted"
  },
  {
   "property": "C13",
   "status": "proved",
   "theorems": [
    "in_truncated_rejected"
   ],
   "note": ""
  },
  {
   "property": "C14",
   "status": "proved",
   "theorems": [
    "in_target_independent",
    "in_unsized_target_refuted"
   ],
   "note": "unsized containers keep their prior size: in_unsized_target_refuted"
  },
  {
   "property": "C15",
   "status": "proved",
   "theorems": [
    "varint_output_canonical",
    "varint_canonical_unique",
    "varint_canonical_shortest",
    "varint_roundtrip"
   ],
   "note": ""
  },
  {
   "property": "C16",
   "status": "proved",
   "theorems": [
    "varint_paths_agree",
    "varint_short_long_agree",
    "varint_decode_exact",
    "varint_decode_bounded"
   ],
   "note": ""
  },
  {
   "property": "C17",
   "status": "proved",
   "theorems": [
    "zigzag_signed_mapping",
    "zigzag_signed_onto",
    "zigzag_short",
    "zigzag_unsigned_refuted"
   ],
   "note": "unsigned zig-zag does not round-trip: refuted"
  },
  {
   "property": "C18",
   "status": "proved",
   "theorems": [
    "in_host_independent",
    "cross_host_round_trip",
    "out_host_independent",
    "out_native_host_dependent_refuted"
   ],
   "note": "without an endian option the bytes depend on the host: refuted"
  },
  {
   "property": "C19",
   "status": "proved",
   "theorems": [
    "bulk_output_memberwise",
    "bulk_array_memberwise",
    "bulk_input_memberwise",
    "bulk_elements_memberwise",
    "bulk_empty_class_refuted"
   ],
   "note": "empty class elements are the exception: bulk_empty_class_refuted"
  },
  {
   "property": "C20",
   "status": "proved",
   "theorems": [
    "const_scalar_output",
    "const_bytes_output",
    "const_container_output",
    "const_scalar_input",
    "const_bytes_input",
    "const_shift",
    "varint_paths_agree"
   ],
   "note": "each constant-evaluation loop equals the memcpy / reverse_copy / memmove path it replaces"
  },
  {
   "property": "C21",
   "status": "proved",
   "theorems": [
    "size_prefix_truncates"
   ],
   "note": ""
  },
  {
   "property": "C22",
   "status": "proved",
   "theorems": [
    "assoc_read_first_wins"
   ],
   "note": ""
  },
  {
   "property": "C23",
   "status": "proved",
   "theorems": [
    "optional_written",
    "optional_ptr_same_bytes",
    "optional_read"
   ],
   "note": ""
  },
  {
   "property": "C24",
   "status": "proved",
   "theorems": [
    "variant_written",
    "out_null_exact",
    "variant_read_selects",
    "variant_read_unknown",
    "known_id_round_trip",
    "known_id_not_default_constructible_refuted",
    "known_id_other_alternative_refuted"
   ],
   "note": ""
  },
  {
   "property": "C25",
   "status": "proved",
   "theorems": [
    "out_null_exact",
    "pointer_read"
   ],
   "note": ""
  },
  {
   "property": "C26",
   "status": "proved",
   "theorems": [
    "bitset_written",
    "bitset_read",
    "bitset_dirty_buffer_refuted",
    "bitset_union",
    "bitset_union_read"
   ],
   "note": "bits are ORed into the buffer: bitset_dirty_buffer_refuted"
  },
  {
   "property": "C27",
   "status": "proved",
   "theorems": [
    "sized_view_in_range",
    "fixed_view_exact",
    "span_never_grows",
    "round_trip_rest_view"
   ],
   "note": ""
  },
  {
   "property": "C28",
   "status": "proved",
   "theorems": [
    "out_many_split",
    "out_call_split",
    "encode_members_concat",
    "in_call_split"
   ],
   "note": ""
  },
  {
   "property": "C29",
   "status": "proved",
   "theorems": [
    "protocol_size_prefix",
    "protocol_fixed_iff_fits",
    "protocol_prefix_read",
    "protocol_length_round_trip",
    "protocol_swapped_prefix_refuted",
    "protocol_truncated_prefix_refuted",
    "protocol_narrow_varint_refuted"
   ],
   "note": "the refutations are the exceptions named in the statement"
  },
  {
   "property": "C30",
   "status": "proved",
   "theorems": [
    "pb_output",
    "pb_output_conforms",
    "pb_output_sized",
    "pb_records_unambiguous",
    "pb_embedded_records",
    "pb_output_big_endian_refuted",
    "pb_output_byte_refuted",
    "pb_output_nested_vector_refuted",
    "pb_output_array_refuted"
   ],
   "note": "size_varint together with a byte swapping archive, std::byte and vectors of vectors are the exceptions, each refuted"
  },
  {
   "property": "C31",
   "status": "proved",
   "theorems": [
    "pb_round_trip",
    "pb_round_trip_unsized",
    "message_restored",
    "pb_round_trip_numbered_refuted",
    "pb_round_trip_byte_refuted"
   ],
   "note": ""
  },
  {
   "property": "C32",
   "status": "proved",
   "theorems": [
    "pb_memory_safe",
    "pb_bounded",
    "pb_reads_only_the_message",
    "pb_reads_records"
   ],
   "note": ""
  },
  {
   "property": "C33",
   "status": "proved",
   "theorems": [
    "pb_absent_members",
    "pb_field_zero",
    "pb_unknown_payload_is_read",
    "pb_unknown_skipped_refuted"
   ],
   "note": ""
  },
  {
   "property": "C34",
   "status": "proved",
   "theorems": [
    "pb_size_clamped",
    "pb_truncated_accepted",
    "pb_embedded_clamped",
    "pb_truncation_detected_refuted"
   ],
   "note": ""
  },
  {
   "property": "C35",
   "status": "proved",
   "theorems": [
    "pb_alloc_limit",
    "pb_varint_reserve_refuted"
   ],
   "note": "packed varint members reserve without consulting the limit: refuted for every limit below 2^62"
  },
  {
   "property": "C36",
   "status": "proved",
   "theorems": [
    "rpc_served",
    "rpc_returns",
    "rpc_shared_buffer",
    "rpc_void",
    "rpc_unknown_id",
    "rpc_unknown_request",
    "rpc_bad_arguments",
    "rpc_truncated",
    "rpc_any_input",
    "rpc_memory_safe",
    "rpc_errc_not_sent",
    "rpc_opaque_data",
    "rpc_opaque_archives",
    "rpc_body_served",
    "rpc_errc_response_refuted",
    "rpc_opaque_pipelined_refuted"
   ],
   "note": "functions returning errc send nothing back and opaque functions take the whole rest of the input: both refuted"
  },
  {
   "property": "C37",
   "status": "proved",
   "theorems": [
    "rpc_duplex_run",
    "rpc_duplex_run_succeeds",
    "rpc_shared_run",
    "rpc_shared_run_succeeds",
    "rpc_shared_overlap_refuted"
   ],
   "note": "on one buffer requests sent ahead must all be served before a response is read: rpc_shared_overlap_refuted"
  },
  {
   "property": "C38",
   "status": "proved",
   "theorems": [
    "big_endian_of_value",
    "big_endian_unique",
    "big_endian_add",
    "big_endian_and",
    "big_endian_or",
    "big_endian_xor",
    "big_endian_not",
    "big_endian_shift_left",
    "big_endian_shift_right",
    "big_endian_equal",
    "big_endian_order_big_endian_host",
    "big_endian_order_refuted"
   ],
   "note": "order on little-endian hosts is not numeric: big_endian_order_refuted"
  },
  {
   "property": "C39",
   "status": "proved",
   "theorems": [
    "sha1_is_fips",
    "sha256_is_fips",
    "sha1_int_value",
    "sha256_int_value",
    "sha_two_blocks_refuted"
   ],
   "note": "both hosts; no digest above 4096 bytes or when more than 55 bytes follow the last whole block: sha_two_blocks_refuted"
  },
  {
   "property": "C40",
   "status": "proved",
   "theorems": [
    "decode_hex_denotes",
    "decode_hex_case",
    "decode_encode_hex",
    "encode_decode_hex",
    "decode_hex_refuses"
   ],
   "note": ""
  },
  {
   "property": "C41",
   "status": "proved",
   "theorems": [
    "to_bytes_one_encodes",
    "join_concat",
    "to_bytes_concat",
    "from_bytes_to_bytes",
    "from_bytes_to_bytes_many",
    "serialize_id_value",
    "id_wire_bytes",
    "id_wire_bytes_swapped_refuted",
    "to_bytes_long_refuted",
    "slice_exact"
   ],
   "note": "objects longer than 4096 bytes have no to_bytes; an integer id is reversed on an archive of the other byte order: both refuted"
  },
  {
   "property": "C42",
   "status": "proved",
   "theorems": [
    "more_stack_same_result",
    "no_depth_limit",
    "recursive_round_trip"
   ],
   "note": ""
  },
  {
   "property": "C43",
   "status": "proved",
   "theorems": [
    "run_option_position_valid",
    "construct_position_valid",
    "run_option_resize",
    "append_preserves",
    "out_position_beyond_ub",
    "construct_outcome"
   ],
   "note": ""
  },
  {
   "property": "C44",
   "status": "proved",
   "theorems": [
    "out_failure_prefix",
    "out_retry_after_failure",
    "out_again_after_failure",
    "out_again_others_refuted"
   ],
   "note": ""
  },
  {
   "property": "C45",
   "status": "proved",
   "theorems": [
    "pb_raw_differs",
    "pb_vec_raw",
    "pb_vec_raw_round_trip",
    "pb_vec_protocol",
    "pb_vec_protocol_round_trip",
    "pb_vector_list_refuted"
   ],
   "note": "stated for containers; an array is the same code without the count (Some SzNone)"
  },
  {
   "property": "C46",
   "status": "proved",
   "theorems": [
    "in_accepts_only_representations",
    "in_accepts_every_representation",
    "in_rejects_only_malformed"
   ],
   "note": "grammar: Spec/Grammar.v; unsized containers, spans and views of the rest excluded (they take their extent from the target or the input)"
  },
  {
   "property": "C47",
   "status": "proved",
   "theorems": [
    "representation_unambiguous",
    "encoding_is_representation",
    "encoding_prefix_free",
    "unsized_ambiguous_refuted"
   ],
   "note": "containers without a size: refuted"
  },
  {
   "property": "C48",
   "status": "proved",
   "theorems": [
    "in_reencode_identity",
    "in_reencode_refuted"
   ],
   "note": "each excluded kind of type is refuted by two inputs"
  },
  {
   "property": "C49",
   "status": "proved",
   "theorems": [
    "apply_calls",
    "apply_errc",
    "apply_any_input",
    "apply_without_parameters",
    "server_calls_apply",
    "apply_errc_success_refuted"
   ],
   "note": "functions with parameters returning errc: apply_errc, refuted as a faithful call"
  },
  {
   "property": "C50",
   "status": "proved",
   "theorems": [
    "voe_faithful",
    "voe_wrong_member_undefined",
    "voe_default_refuted"
   ],
   "note": ""
  },
  {
   "property": "C51",
   "status": "proved",
   "theorems": [
    "unique_ids_exact",
    "unique_exact",
    "same_id_types_exact",
    "default_ids",
    "id_of_index",
    "index_of_id",
    "index_of_other",
    "visit_exact",
    "index_by_type_exact",
    "index_by_type_refuted",
    "variant_checked",
    "variant_compiles_iff",
    "pb_checks_numbers",
    "checked_message_wf",
    "number_bound_unchecked_refuted"
   ],
   "note": "variant_checked and checked_message_wf give the well-formedness hypotheses of the other theorems"
  },
  {
   "property": "C52",
   "status": "proved",
   "theorems": [
    "some_overload_viable",
    "explicit_serialize_first",
    "protocol_selected",
    "shape_selected",
    "plain_selected",
    "selected_fits",
    "std_selected",
    "rvalue_array_refuted",
    "two_shapes_refuted",
    "pointer_serialize_refuted"
   ],
   "note": ""
  },
  {
   "property": "C53",
   "status": "proved",
   "theorems": [
    "no_member_skipped",
    "members_detected",
    "too_many_members",
    "declared_zero_refuted",
    "count_without_class",
    "count_with_packs"
   ],
   "note": ""
  },
  {
   "property": "C54",
   "status": "proved",
   "theorems": [
    "growth_geometric",
    "growth_amortised",
    "exact_growth_refuted"
   ],
   "note": "The requests are observed through the allocator: asks f st ns says that the action succeeds with every allocator granting ns and throws with any that refuses one of them. Sizes of the buffer are counted, not capacity: a container that keeps spare capacity reallocates at most as often."
  },
  {
   "property": "C55",
   "status": "proved",
   "theorems": [
    "raw_written",
    "raw_read",
    "raw_round_trip",
    "raw_beyond_refuted",
    "raw_wrap_refuted",
    "raw_position_refuted"
   ],
   "note": "Run-time path (memcpy). The memory of the items is a list of bytes; access outside of it is the outcome RUB."
  },
  {
   "property": "C56",
   "status": "proved",
   "theorems": [
    "dynamic_id_split",
    "dynamic_id_round_trip",
    "dynamic_id_unknown"
   ],
   "note": "Input only: basic_out has no serialize_one(variant, id), so known_id(id, variant) does not compile on output."
  },
  {
   "property": "C57",
   "status": "proved",
   "theorems": [
    "duplex_fifo",
    "data_in_out_empty",
    "duplex_early_read",
    "duplex_stops",
    "duplex_retry_refuted"
   ],
   "note": "Growable buffer, fitting enlarger, self-delimiting types. The abstract queue (Spec/Fifo.v) does not mention bytes."
  },
  {
   "property": "C58",
   "status": "proved",
   "theorems": [
    "in_failure_targets",
    "in_failure_unchanged",
    "in_failure_assoc",
    "in_failure_unchanged_refuted"
   ],
   "note": "The permitted states (Spec/Torn.v) do not mention bytes, positions or the reader."
  },
  {
   "property": "C59",
   "status": "proved",
   "theorems": [
    "in_elements_bounded",
    "in_elements_refuted",
    "in_amplification_refuted"
   ],
   "note": "Types that determine their own extent. The memory requested during the call is limited by alloc_limit only (C11)."
  },
  {
   "property": "C60",
   "status": "proved",
   "theorems": [
    "interchangeable",
    "varint_widening_refuted"
   ],
   "note": "The correspondence (Spec/Compat.v) is an inductive relation on types and values that does not mention bytes. Memory, stack and alloc_limit may still stop the reader."
  },
  {
   "property": "C61",
   "status": "proved",
   "theorems": [
    "pb_written_standard",
    "pb_reads_standard",
    "std_message_unique",
    "shared_is_standard",
    "pb_negative_int32_refuted",
    "pb_int32_as_int64_refuted",
    "pb_bool_varint_refuted",
    "pb_embedded_twice_refuted",
    "pb_packed_twice_refuted",
    "pb_map_duplicate_refuted"
   ],
   "note": "The rules are the inductive relation std (Spec/PbStd.v), proved to determine its result. Overlong varints and groups are outside the record syntax; skipping unknown fields is refuted under C33. std::byte members, multimaps and wide strings have no protobuf counterpart and are excluded."
  },
  {
   "property": "C62",
   "status": "proved",
   "theorems": [
    "self_referencing_exact",
    "self_reference_interrupts",
    "recursion_recognised_refuted",
    "own_function_interrupts"
   ],
   "note": "What a compiler does with such a cycle (gcc reports an error unless ZPP_BITS_INLINE_MODE is 0) is outside the model."
  },
  {
   "property": "C63",
   "status": "proved",
   "theorems": [
    "pb_damaged",
    "pb_first_damaged",
    "pb_damaged_item"
   ],
   "note": "Damage in a container of multi-byte strings, and in packed fixed-width numbers of a non-contiguous container or on a big-endian host, is not described (those are read element by element).  Data shorter than 2^63 bytes."
  },
  {
   "property": "C64",
   "status": "proved",
   "theorems": [
    "first_size_decides",
    "first_limit_decides",
    "first_enlarger_decides",
    "switches_decide",
    "options_of_a_kind_decide",
    "run_options_in_order"
   ],
   "note": ""
  },
  {
   "property": "C65",
   "status": "proved",
   "theorems": [
    "in_reencode_no_longer",
    "relay_fits",
    "relay_reads_back"
   ],
   "note": "zig_zag over an unsigned type is excluded: reencode_longer_refuted."
  },
  {
   "property": "C66",
   "status": "proved",
   "theorems": [
    "out_null_exact",
    "out_null_never_written",
    "out_null_stops"
   ],
   "note": ""
  },
  {
   "property": "C67",
   "status": "proved",
   "theorems": [
    "in_error_exact",
    "in_error_codes"
   ],
   "note": "Types of Spec/Grammar.v (no unsized containers); targets of the right type."
  },
  {
   "property": "C68",
   "status": "proved",
   "theorems": [
    "in_ownership",
    "in_refusal_throws",
    "in_heap_refines",
    "in_lifetime",
    "free_flag_exact"
   ],
   "note": "Types without spans whose value-initialised classes own nothing. A shared_ptr target is the only owner of its pointee; spare capacity, short strings and hash buckets are left out."
  },
  {
   "property": "C69",
   "status": "proved",
   "theorems": [
    "pb_accepts_only",
    "pb_accepts_every",
    "pb_one_result",
    "pb_rejects_only",
    "pb_item_language",
    "pb_wire_type_unused",
    "pb_wire_type_refuted",
    "pb_packed_end_refuted",
    "pb_packed_length_refuted",
    "pb_packed_rest_refuted"
   ],
   "note": "The language is a superset of protobuf on the one hand (refutations) and, by C61, not a superset of what protobuf parsers accept on the other."
  },
  {
   "property": "C70",
   "status": "proved",
   "theorems": [
    "custom_wire_format",
    "custom_result_fixed",
    "custom_result_growable",
    "custom_out_frame",
    "custom_read_safe",
    "custom_consumed_only",
    "custom_truncated_rejected",
    "custom_round_trip",
    "custom_mirror",
    "custom_causal_readable",
    "custom_in_order_is_default",
    "custom_round_trip_any_function_refuted",
    "custom_failure_atomic_refuted"
   ],
   "note": "The functions are arbitrary trees of transfers, decisions, locals, assignments and returned errors; exceptions thrown by a function and functions that move the position of the archive are left out."
  },
  {
   "property": "C71",
   "status": "proved",
   "theorems": [
    "views_like_copies",
    "views_unmoved",
    "views_until_write",
    "views_survive_reserved",
    "view_echo_refuted",
    "view_spare_refuted",
    "view_overlap_refuted",
    "view_write_exact"
   ],
   "note": "Views at the top level of a call (not inside classes and containers), archives that fit the vector after each call; the three refutations show that each condition is needed."
  },
  {
   "property": "C72",
   "status": "proved",
   "theorems": [
    "seek_call",
    "seek_file",
    "seek_record",
    "seek_succeeds",
    "seek_patch",
    "seek_accessors",
    "seek_beyond_refuted",
    "seek_read_beyond_refuted",
    "seek_varint_refuted",
    "seek_bitset_refuted"
   ],
   "note": "The refutations show that each restriction is needed: positions behind the end are not checked, varints leave bytes nobody wrote, bitsets mix with what was there."
  },
  {
   "property": "C73",
   "status": "proved",
   "theorems": [
    "in_work_linear",
    "in_work_limited",
    "work_announced_refuted",
    "work_weightless_refuted"
   ],
   "note": "Comparisons and hashes of insertions into sets and maps are not counted (an insertion is one step). The refutations show that the limit and the condition on elements are needed."
  },
  {
   "property": "C74",
   "status": "proved",
   "theorems": [
    "pb_contents_bounded",
    "pb_contents_limited",
    "pb_announced_refuted",
    "pb_defaults_refuted"
   ],
   "note": "What is held, not what is requested: reserve for packed varints asks for the announced length whatever the limit (C35). The refutations show that the limit and the condition on value-initialised messages are needed."
  },
  {
   "property": "C75",
   "status": "proved",
   "theorems": [
    "pb_work_linear",
    "pb_work_limited",
    "pb_work_announced_refuted",
    "pb_packed_request"
   ],
   "note": "Steps as defined in Model/PbCost.v: records, bytes, members compared or cleared, elements read or inserted, bytes of objects created, elements created or moved by resize and reserve."
  },
  {
   "property": "C76",
   "status": "proved",
   "theorems": [
    "pb_stack_sufficient",
    "pb_more_stack_same",
    "pb_stack_immaterial",
    "pb_no_depth_limit"
   ],
   "note": "A level of stack is one message being read (the fuel of des_fields)."
  },
  {
   "property": "C77",
   "status": "proved",
   "theorems": [
    "pb_moves_exact",
    "pb_moves_levels",
    "pb_moves_short",
    "pb_moves_quadratic",
    "pb_moves_linear_refuted"
   ],
   "note": "Bytes moved by the memmove of the size prefix; the moves of a growing vector are C54."
  },
  {
   "property": "C78",
   "status": "proved",
   "theorems": [
    "pb_ownership",
    "pb_refusal_throws",
    "pb_heap_refines",
    "pb_lifetime",
    "pb_element_in_place",
    "pb_packed_in_place"
   ],
   "note": "Standard containers as Model/Heap.v and Model/PbHeap.v describe them; messages whose default constructor fills containers are left out."
  },
  {
   "property": "C79",
   "status": "proved",
   "theorems": [
    "rpc_throw_served",
    "rpc_throw_survived",
    "rpc_throw_data",
    "rpc_without_throw",
    "rpc_throw_misattributed_refuted",
    "rpc_unknown_resumed_refuted"
   ],
   "note": "Request and response in separate buffers; the refuted statements are the two assumptions a client or server might make."
  },
  {
   "property": "C80",
   "status": "proved",
   "theorems": [
    "const_out_call",
    "const_in_call",
    "const_pb_out",
    "const_pb_in"
   ],
   "note": "Undefined behaviour at run time is a compile error in constant evaluation; both are RUB in the model. Ids of variants have at least one byte."
  },
  {
   "property": "C81",
   "status": "proved",
   "theorems": [
    "custom_throw_out",
    "custom_throw_in",
    "custom_throw_fixed",
    "custom_throw_usable",
    "custom_throw_reread",
    "custom_call_size",
    "custom_throw_tail_stays",
    "custom_throw_trim_refuted"
   ],
   "note": "Writing again at an earlier position is claimed for objects without bitsets (bitsets are ORed into the bytes, C01). custom_throw_trim_refuted: data() is longer than what was written even after a later call that succeeds."
  },
  {
   "property": "C82",
   "status": "proved",
   "theorems": [
    "mixed_output",
    "mixed_none_out",
    "mixed_none_in",
    "mixed_safe",
    "mixed_message_extent",
    "mixed_round_trip",
    "mixed_big_endian_refuted",
    "mixed_no_size_refuted",
    "mixed_truncation_detected_refuted",
    "mixed_null_stops"
   ],
   "note": "Output is claimed for values without bitsets whose messages fit their length prefixes; the round trip for values without null pointers and valueless variants. Message classes that are byte serializable are ordinary classes here (C45)."
  },
  {
   "property": "C83",
   "status": "proved",
   "theorems": [
    "moving_output",
    "moving_fixed",
    "moving_growable",
    "moving_call",
    "moving_none",
    "moving_tidy",
    "moving_frame_tidy",
    "moving_frame_wire",
    "moving_frame_round_trip",
    "moving_frame_skip",
    "moving_read_safe",
    "moving_frame_safe",
    "moving_keeps_everything_refuted",
    "moving_past_end_refuted",
    "moving_unchecked_length_refuted",
    "moving_frame_short_length_refuted"
   ],
   "note": "Output is claimed for items without bitsets (they are added to what is in the buffer, C26) and functions that never move past the end of what has been written. Positions are natural numbers; a function that computes one modulo 2^64 does so itself."
  },
  {
   "property": "C84",
   "status": "proved",
   "theorems": [
    "surrogate_wire_format",
    "surrogate_fixed",
    "surrogate_growable",
    "surrogate_frame",
    "surrogate_stack",
    "surrogate_none",
    "surrogate_read_safe",
    "surrogate_consumed_only",
    "surrogate_round_trip",
    "surrogate_conversion_wire",
    "surrogate_conversion_round_trip",
    "surrogate_conversion_all_or_nothing",
    "surrogate_terminates_refuted",
    "surrogate_lossy_refuted"
   ],
   "note": "Functions that do not move the position (C83). A call of a function inside of a function takes one unit of stack; statements about what is written and about errors are for a stack that suffices, and success implies that it did."
  },
  {
   "property": "C85",
   "status": "proved",
   "theorems": [
    "out_work_exact",
    "out_work_linear",
    "out_work_any_factor",
    "visits_objects",
    "out_calls_linear",
    "out_calls_quadratic",
    "out_calls_linear_refuted",
    "out_work_in_bytes_refuted"
   ],
   "note": "Steps as defined in Model/OutCost.v; a bitset counts its bytes, not its bits. Types and values of C02 (no serialize functions, no protobuf messages). That the linear bound fails under the default options is proved for every container (out_calls_quadratic)."
  },
  {
   "property": "C86",
   "status": "proved",
   "theorems": [
    "co_serve_eager",
    "co_transparent",
    "co_served",
    "co_error",
    "co_returns",
    "co_void_awaited",
    "co_void_parameters",
    "co_opaque_data",
    "co_void_error_refuted",
    "co_void_runs_refuted",
    "co_errc_refuted",
    "co_serve_late_refuted"
   ],
   "note": "zpp_throwing.h is not in the repository: assumed of it is what Model/RpcCo.v says. The transparency theorem excludes exactly the bindings the refutations are about (well_bound)."
  },
  {
   "property": "C87",
   "status": "proved",
   "theorems": [
    "narrow_in",
    "narrow_in_call",
    "narrow_in_agree",
    "narrow_enlarge",
    "narrow_out",
    "narrow_out_ok",
    "narrow_round_trip",
    "narrow_truncates_refuted",
    "narrow_unchecked_refuted",
    "narrow_enlarger_refuted",
    "narrow_in_safe",
    "narrow_enlarge_safe",
    "narrow_put_safe",
    "narrow_size_varint",
    "narrow_size_native_refuted"
   ],
   "note": "platform W: no request of half the address space or more is granted. nfits W is the condition on size types. The theorems on writing exclude exactly what the two refutations on enlargers are about."
  },
  {
   "property": "C88",
   "status": "proved",
   "theorems": [
    "signed_none_same",
    "signed_in_safe",
    "signed_negative_vec",
    "signed_negative_view",
    "signed_negative_span",
    "signed_negative_assoc",
    "signed_round_trip",
    "signed_char_either",
    "signed_round_trip_refuted"
   ],
   "note": "sgn says which size types are signed; writing is the same as for unsigned ones, as the conversion keeps the bytes. signed_negative_assoc assumes that reading an element advances."
  },
  {
   "property": "C89",
   "status": "proved",
   "theorems": [
    "pb_width_same",
    "pb_width_safe",
    "pb_width_records",
    "pb_width_round_trip",
    "pb_width_round_trip_unsized",
    "pb_width_clamped_refuted",
    "pb_width_wraps_refuted"
   ],
   "note": "The writer is the one of Model/Pb.v; lengths written are the same numbers on every platform."
  },
  {
   "property": "C90",
   "status": "proved",
   "theorems": [
    "answer_final",
    "too_short_means_more",
    "pieces_same_answer",
    "pieces_stop",
    "pieces_round_trip",
    "pieces_stream",
    "pieces_span_refuted",
    "pieces_rest_refuted"
   ],
   "note": "The loop is the user's program (Model/Pieces.v); it uses the library through in::operator() only. Protobuf messages are delimited by their size and are not the subject."
  },
  {
   "property": "C91",
   "status": "proved",
   "theorems": [
    "pb_announced_only",
    "pb_pieces_same",
    "pb_pieces_incomplete",
    "pb_pieces_round_trip",
    "pb_pieces_stream",
    "pb_pieces_retry_refuted"
   ],
   "note": "The loops are the user's programs (Model/PbPieces.v); they use des_size (reading the prefix as an item) and des_pb_item only."
  },
  {
   "property": "C92",
   "status": "proved",
   "theorems": [
    "rpc_serve_settled",
    "rpc_pieces_same",
    "rpc_pieces_served",
    "rpc_growable_conclusive",
    "rpc_pieces_response_refuted",
    "rpc_pieces_errc_refuted",
    "rpc_pieces_opaque_refuted"
   ],
   "note": "The loop is the user's program (Model/RpcPieces.v). The functions are those of bind; opaque ones are the subject of rpc_pieces_opaque_refuted."
  },
  {
   "property": "C93",
   "status": "proved",
   "theorems": [
    "custom_answer_final",
    "custom_too_short_means_more",
    "custom_pieces_one_read",
    "custom_pieces_stop",
    "custom_pieces_round_trip",
    "custom_pieces_same_object_refuted",
    "custom_pieces_own_code_refuted"
   ],
   "note": "The loop is the user's program (Model/CustomPieces.v); the functions are those of C70 (Model/Custom.v), on items that say themselves where they end."
  },
  {
   "property": "C94",
   "status": "proved",
   "theorems": [
    "enlarger_fits",
    "exact_enlarger_fits",
    "exact_enlarger_spare",
    "exact_enlarger_fits_refuted"
   ],
   "note": "Growable buffers that start at the end of their data; the bound of 18 is 2 * (10 - 1): one byte of room at least is missing before ten are added, and one byte at least is used."
  },
  {
   "property": "C95",
   "status": "proved",
   "theorems": [
    "pb_exception_position",
    "pb_refused_position",
    "pb_again_unsized",
    "pb_again_result",
    "pb_again_succeeds",
    "pb_again_position_refuted"
   ],
   "note": "The loop is the user's program (Model/PbAgain.v) over the reader with refusable allocations of C78 (Model/PbHeap.v); messages that can be read back (C31)."
  },
  {
   "property": "C96",
   "status": "proved",
   "theorems": [
    "in_again_one_read",
    "in_again_ends",
    "in_again_round_trip",
    "in_again_position_refuted"
   ],
   "note": "The loop is the user's program (Model/InAgain.v) over the reader with refusable allocations of C68 (Model/Heap.v); types whose extent is their own (C14)."
  },
  {
   "property": "C97",
   "status": "proved",
   "theorems": [
    "out_again_written",
    "out_again_ends",
    "out_again_position_refuted",
    "again_round_trip"
   ],
   "note": "The loop is the user's program (Model/OutAgain.v) over out_call (Model/Out.v); what memory an attempt finds is the alloc_ok of its configuration."
  },
  {
   "property": "C98",
   "status": "proved",
   "theorems": [
    "mixed_again_written",
    "mixed_again_ends",
    "mixed_again_position_refuted",
    "mixed_again_round_trip"
   ],
   "note": "The loop is the user's program (Model/MixedAgain.v) over the writer of Model/Mixed.v; without bitsets, as in C82."
  },
  {
   "property": "C99",
   "status": "proved",
   "theorems": [
    "out_any_contents",
    "out_call_any_contents",
    "out_over_old_bytes"
   ],
   "note": "Model/Out.v, with bitsets and without the demand of C02 that the buffer is clean for them."
  }
 ]
}
