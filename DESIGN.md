# Formal model of zpp_bits in Rocq - design

The code under study is the single header `/repo/zpp_bits.h` (5713 lines, C++20). Line numbers below
and in the Coq comments refer to that file.  The header was read as text; it was neither built nor run.

## 1. Approach

A deep embedding.  C++ types that the library can serialize become terms of an inductive type `ty`
(scalars, bools, varints, structs, arrays, tuples, containers, sets/maps, optionals, variants, owning
pointers, bitsets, views, recursive structs through an environment `tenv`); objects become terms of
`val`.  The overload set `serialize_one` becomes two total functions

* `ser : tenv -> cfg -> val -> ty -> ost -> res * ost`  (model of `basic_out`, `Model/Out.v`)
* `des : tenv -> cfg -> data -> fuel -> ty -> prior -> position -> res * val * position`
  (model of `in`, `Model/In.v`)

written branch by branch after the C++ overloads.  `cfg` holds the archive options after template
resolution (host byte order, byte swapping, size type, limits, growth factors, growable or not), an
arbitrary allocator predicate `alloc_ok` and an arbitrary `sizeof` for the types whose layout is up to the
ABI.  Out-of-bounds accesses are an explicit outcome `RUB` of the memory primitives, allocation failure is
`RThrow`, exhausting the stack while reading a recursive type is `RStack`.  Machine arithmetic on `size_t`
is done in `N` modulo 2^64 where it can wrap (C87: modulo 2^W for platforms with another width).

Separately a specification is written that does not mention the model functions (`Spec/`): the wire
format as a pure function `encode`, the input language as an inductive grammar, LEB128, the protobuf wire
grammar and merge rules, a queue of calls, FIPS 180-4, hexadecimal.  The theorems relate the two.

Files (all under `rocq/theories`):

| directory | contents |
|---|---|
| `Base` | bytes, windows of lists, little-endian numbers |
| `Model` | the code, function by function, each definition citing its lines |
| `Spec` | independent specifications; they import `Model/Types.v` (the universe of types) at most |
| `Proofs` | lemmas |
| `Thm` | the theorems named in MANIFEST.json, each with a non-trivial `Example` meeting its hypotheses |


## 2. Per property: what is modelled and how it is proved

Status and the same names are in MANIFEST.json. Theorems whose name ends in `_refuted` show that the
property fails outside the stated conditions (a concrete witness, checked by computation).

**C01 Round trip of the native format** (proved; `Thm/Input.v`)  
Modelled: `ser`, `des`, `out_call`, `in_call`, `wt`.  
Proof: `des` on any data holding `encode v` at the position returns `v` (induction on the value with fuel for recursive types), combined with C02; unsized containers, spans and views of the rest get their own statements because their extent comes from the target or the input.  
Theorems: `round_trip`, `round_trip_same_buffer`, `round_trip_call`, `round_trip_unsized`, `round_trip_span`, `round_trip_rest_view`.

**C02 Output bytes are the documented wire format** (proved; `Thm/Output.v`)  
Modelled: `ser` against `Spec/Wire.v`'s `encode`.  
Proof: induction on the value; invariant `emits`: the buffer is the grown old buffer with the encoding written over it.  
Theorems: `out_wire_format`, `out_bytes_independent`.  
Note: bitsets need zero bytes at the destination (see C26).

**C03 Writing never disturbs bytes outside the written window** (proved; `Thm/Output.v`)  
Modelled: `ser`.  
Proof: same invariant for all outcomes.  
Theorems: `out_frame`.

**C04 Fixed buffers: success iff it fits** (proved; `Thm/Output.v`)  
Modelled: `ser` on fixed buffers.  
Proof: success is characterised by `length (encode v)`.  
Theorems: `out_fixed_iff_fits`.

**C05 Growable buffers only fail for lack of memory** (proved; `Thm/Output.v`)  
Modelled: `ser` on growable buffers.  
Proof: bound on each growth step carried through the induction.  
Theorems: `out_growable_outcomes`.

**C06 Growth arithmetic is overflow safe** (proved; `Thm/Output.v`)  
Modelled: `enlarge_for`.  
Proof: arithmetic modulo 2^64.  
Theorems: `enlarge_for_safe`, `enlarge_for_any_request`, `enlarge_shrinking_refuted`, `enlarge_unchecked_refuted`.  
Note: the two refutations are the failure cases named in the statement.

**C07 Fit-to-size after growth** (proved; `Thm/Output.v`)  
Modelled: `out_call`, `fit_size`.  
Proof: from C02 and C03.  
Theorems: `out_call_fits`, `out_call_keeps_written`, `out_call_no_growth`, `out_call_overgrowth_refuted`.  
Note: writing inside existing data can leave extra zero bytes: out_call_overgrowth_refuted.

**C08 alloc_limit bounds the output buffer** (proved; `Thm/Output.v`)  
Modelled: `enlarge_for`, `ser`.  
Proof: invariant on the buffer length through the induction.  
Theorems: `out_alloc_limit`, `enlarge_over_limit`.

**C09 Deserialization is memory safe on arbitrary bytes** (proved; `Thm/Input.v`)  
Modelled: `des`.  
Proof: induction on fuel and type: the outcome is never `RUB` for bool-free types; without recursive references never `RStack`.  
Theorems: `in_memory_safe`, `in_no_stack_exhaustion`, `in_call_memory_safe`, `in_bool_refuted`, `in_position_beyond_ub`.  
Note: bool bytes other than 0/1 are undefined behaviour: in_bool_refuted.

**C10 Reading position stays in range and the target stays valid** (proved; `Thm/Input.v`)  
Modelled: `des`.  
Proof: same induction, with `wt` of the target afterwards for all outcomes.  
Theorems: `in_position_and_target_valid`.

**C11 alloc_limit bounds input allocations of sequence containers** (proved; `Thm/Input.v`)  
Modelled: `des` under an allocator that refuses more than L bytes.  
Proof: the results with and without that allocator agree, so no request exceeds the limit.  
Theorems: `in_alloc_limit`, `in_over_limit`.  
Note: the limit does not apply to associative containers, see in_limit_assoc.

**C12 Decoding depends only on the bytes it consumes** (proved; `Thm/Input.v`)  
Modelled: `des`.  
Proof: induction: same result on any data that agrees on the consumed window.  
Theorems: `in_consumed_bytes_only`, `in_appended`, `in_rest_view_refuted`.  
Note: unsized views depend on the rest of the buffer: in_rest_view_refuted.

**C13 Truncated input is always rejected** (proved; `Thm/Input.v`)  
Modelled: `des`.  
Proof: induction: no success on a strict prefix.  
Theorems: `in_truncated_rejected`.

**C14 Result is independent of the target's previous contents** (proved; `Thm/Input.v`)  
Modelled: `des`.  
Proof: induction on the type: same result from any two targets.  
Theorems: `in_target_independent`, `in_unsized_target_refuted`.  
Note: unsized containers keep their prior size: in_unsized_target_refuted.

**C15 varint output is canonical LEB128** (proved; `Thm/Varints.v`)  
Modelled: `encode_varint` against `Spec/Leb128.v`.  
Proof: strong induction on the number; uniqueness and minimality proved for the specification.  
Theorems: `varint_output_canonical`, `varint_canonical_unique`, `varint_canonical_shortest`, `varint_roundtrip`.

**C16 varint decoding: all code paths agree** (proved; `Thm/Varints.v`)  
Modelled: three decoders and the inline variant.  
Proof: equalities over all byte lists and positions.  
Theorems: `varint_paths_agree`, `varint_short_long_agree`, `varint_decode_exact`, `varint_decode_bounded`.

**C17 zig-zag mapping is the standard bijection for signed types** (proved; `Thm/Varints.v`)  
Modelled: `wire_value`.  
Proof: arithmetic in Z.  
Theorems: `zigzag_signed_mapping`, `zigzag_signed_onto`, `zigzag_short`, `zigzag_unsigned_refuted`.  
Note: unsigned zig-zag does not round-trip: refuted.

**C18 Explicit byte order makes the format host independent** (proved; `Thm/Items.v`, `Thm/Output.v`)  
Modelled: `ser`, `des` under both hosts.  
Proof: equality of runs on the two hosts.  
Theorems: `in_host_independent`, `cross_host_round_trip`, `out_host_independent`, `out_native_host_dependent_refuted`.  
Note: without an endian option the bytes depend on the host: refuted.

**C19 Bulk memory copy equals member-wise serialization** (proved; `Thm/Items.v`)  
Modelled: byte path and member path of `ser`/`des`.  
Proof: induction over byte-serializable types.  
Theorems: `bulk_output_memberwise`, `bulk_array_memberwise`, `bulk_input_memberwise`, `bulk_elements_memberwise`, `bulk_empty_class_refuted`.  
Note: empty class elements are the exception: bulk_empty_class_refuted.

**C20 Compile-time and run-time evaluation agree** (proved; `Thm/Const.v`, `Thm/Varints.v`)  
Modelled: `Model/Loops.v`.  
Proof: loop invariants over lists.  
Theorems: `const_scalar_output`, `const_bytes_output`, `const_container_output`, `const_scalar_input`, `const_bytes_input`, `const_shift`, `varint_paths_agree`.  
Note: each constant-evaluation loop equals the memcpy / reverse_copy / memmove path it replaces.

**C21 Container size prefix** (proved; `Thm/Items.v`)  
Modelled: `ser_size`, `des`.  
Proof: exact characterisation modulo 256^w.  
Theorems: `size_prefix_truncates`.

**C22 Associative containers** (proved; `Thm/Items.v`)  
Modelled: `des_assoc` with an arbitrary comparison.  
Proof: invariant of repeated insertion: keys sorted, unique, first occurrence wins.  
Theorems: `assoc_read_first_wins`.

**C23 Optionals** (proved; `Thm/Items.v`)  
Modelled: optional branches of `ser`/`des`.  
Proof: direct, for all inputs.  
Theorems: `optional_written`, `optional_ptr_same_bytes`, `optional_read`.

**C24 Variants** (proved; `Thm/Items.v`, `Thm/Nulls.v`)  
Modelled: variant branches, `find_id`, `ser_known`, `des_known`.  
Proof: lookup lemmas under distinct ids.  
Theorems: `variant_written`, `out_null_exact`, `variant_read_selects`, `variant_read_unknown`, `known_id_round_trip`, `known_id_not_default_constructible_refuted`, `known_id_other_alternative_refuted`.

**C25 Owning pointers** (proved; `Thm/Items.v`, `Thm/Nulls.v`)  
Modelled: pointer branches.  
Proof: direct, for all inputs.  
Theorems: `out_null_exact`, `pointer_read`.

**C26 Bitsets** (proved; `Thm/Items.v`, `Thm/BitUnion.v`)  
Modelled: `ser_bitset`, `or_bits`, `des_bitset`.  
Proof: bit-level characterisation.  
Theorems: `bitset_written`, `bitset_read`, `bitset_union`, `bitset_union_read`, `bitset_dirty_buffer_refuted`.  
Note: bits are ORed into the buffer: bitset_dirty_buffer_refuted.

**C27 Views** (proved; `Thm/Input.v`, `Thm/Items.v`)  
Modelled: view branches.  
Proof: position arithmetic.  
Theorems: `sized_view_in_range`, `fixed_view_exact`, `span_never_grows`, `round_trip_rest_view`.

**C28 Sequencing** (proved; `Thm/Input.v`, `Thm/Output.v`)  
Modelled: `ser_many`, `des_many`, `out_call`, `in_call`.  
Proof: associativity of the sequencing.  
Theorems: `out_many_split`, `out_call_split`, `encode_members_concat`, `in_call_split`.

**C29 Size prefix of protocol messages** (proved; `Thm/Protocol.v`)  
Modelled: `ser_protocol`, `des_protocol` around an arbitrary body.  
Proof: window lemmas for the in-place shift.  
Theorems: `protocol_size_prefix`, `protocol_fixed_iff_fits`, `protocol_prefix_read`, `protocol_length_round_trip`, `protocol_swapped_prefix_refuted`, `protocol_truncated_prefix_refuted`, `protocol_narrow_varint_refuted`.  
Note: the refutations are the exceptions named in the statement.

**C30 Protobuf output conforms to the protobuf wire format** (proved; `Thm/Pb.v`)  
Modelled: `Model/Pb.v` writer against `Spec/PbWire.v`.  
Proof: mutual induction on messages and members; the grammar is proved unambiguous.  
Theorems: `pb_output`, `pb_output_conforms`, `pb_output_sized`, `pb_records_unambiguous`, `pb_embedded_records`, `pb_output_big_endian_refuted`, `pb_output_byte_refuted`, `pb_output_nested_vector_refuted`, `pb_output_array_refuted`.  
Note: size_varint together with a byte swapping archive, std::byte, C arrays and vectors of vectors are the exceptions, each refuted.

**C31 Protobuf round trip** (proved; `Proofs/PbRound.v`, `Thm/Pb.v`)  
Modelled: `Model/Pb.v` writer and reader.  
Proof: the reader on the records the writer emits, by induction on the members.  
Theorems: `pb_round_trip`, `pb_round_trip_unsized`, `message_restored`, `pb_round_trip_numbered_refuted`, `pb_round_trip_byte_refuted`.

**C32 Protobuf reader memory safety and bounds** (proved; `Thm/Pb.v`, `Thm/PbInput.v`)  
Modelled: `Model/Pb.v` reader.  
Proof: induction on fuel: no `RUB`, never outside the enclosing message, linear fuel suffices.  
Theorems: `pb_memory_safe`, `pb_bounded`, `pb_reads_only_the_message`, `pb_reads_records`.

**C33 Protobuf unknown and missing fields** (proved; `Thm/PbInput.v`)  
Modelled: `Model/Pb.v` reader against `Spec/PbMerge.v`.  
Proof: the reader on a list of records equals merging them one by one.  
Theorems: `pb_absent_members`, `pb_field_zero`, `pb_unknown_payload_is_read`, `pb_unknown_skipped_refuted`.

**C34 Protobuf length prefixes beyond the data** (proved; `Thm/PbInput.v`)  
Modelled: `Model/Pb.v` reader.  
Proof: the clamped size equals the available data.  
Theorems: `pb_size_clamped`, `pb_truncated_accepted`, `pb_embedded_clamped`, `pb_truncation_detected_refuted`.

**C35 alloc_limit in protobuf reading** (proved; `Thm/PbInput.v`)  
Modelled: `Model/Pb.v` reader under a refusing allocator.  
Proof: as C11.  
Theorems: `pb_alloc_limit`, `pb_varint_reserve_refuted`.  
Note: packed varint members reserve without consulting the limit: refuted for every limit below 2^62.

**C36 RPC request/serve/response** (proved; `Thm/Rpc.v`)  
Modelled: `Model/Rpc.v`.  
Proof: from C01, C12, C13 and lookup of ids.  
Theorems: `rpc_served`, `rpc_returns`, `rpc_shared_buffer`, `rpc_void`, `rpc_unknown_id`, `rpc_unknown_request`, `rpc_bad_arguments`, `rpc_truncated`, `rpc_any_input`, `rpc_memory_safe`, `rpc_errc_not_sent`, `rpc_opaque_data`, `rpc_opaque_archives`, `rpc_body_served`, `rpc_errc_response_refuted`, `rpc_opaque_pipelined_refuted`.  
Note: functions returning errc send nothing back and opaque functions take the whole rest of the input: both refuted.

**C37 Multiple RPC calls through one channel** (proved; `Thm/RpcQueue.v`)  
Modelled: `run` of arbitrary operation sequences against `Spec/RpcQueue.v`.  
Proof: simulation between the archives and two FIFO queues.  
Theorems: `rpc_duplex_run`, `rpc_duplex_run_succeeds`, `rpc_shared_run`, `rpc_shared_run_succeeds`, `rpc_shared_overlap_refuted`.  
Note: on one buffer requests sent ahead must all be served before a response is read: rpc_shared_overlap_refuted.

**C38 big_endian arithmetic** (proved; `Thm/BigEndian.v`)  
Modelled: `Model/BigEndian.v` on both hosts.  
Proof: byte loops equal arithmetic on the represented numbers.  
Theorems: `big_endian_of_value`, `big_endian_unique`, `big_endian_add`, `big_endian_and`, `big_endian_or`, `big_endian_xor`, `big_endian_not`, `big_endian_shift_left`, `big_endian_shift_right`, `big_endian_equal`, `big_endian_order_big_endian_host`, `big_endian_order_refuted`.  
Note: order on little-endian hosts is not numeric: big_endian_order_refuted.

**C39 SHA-1 and SHA-256** (proved; `Thm/Sha.v`)  
Modelled: `Model/Sha.v` against `Spec/Fips180.v`.  
Proof: round by round, block by block simulation.  
Theorems: `sha1_is_fips`, `sha256_is_fips`, `sha1_int_value`, `sha256_int_value`, `sha_two_blocks_refuted`.  
Note: both hosts; no digest above 4096 bytes or when more than 55 bytes follow the last whole block: sha_two_blocks_refuted.

**C40 Hex literals** (proved; `Thm/Hex.v`)  
Modelled: `Model/Literals.v` against `Spec/Hex.v`.  
Proof: list induction.  
Theorems: `decode_hex_denotes`, `decode_hex_case`, `decode_encode_hex`, `encode_decode_hex`, `decode_hex_refuses`.

**C41 to_bytes / from_bytes / id** (proved; `Thm/ToBytes.v`)  
Modelled: `Model/ToBytes.v`.  
Proof: from C01 and C02 on compile-time arrays.  
Theorems: `to_bytes_one_encodes`, `join_concat`, `to_bytes_concat`, `from_bytes_to_bytes`, `from_bytes_to_bytes_many`, `serialize_id_value`, `id_wire_bytes`, `id_wire_bytes_swapped_refuted`, `to_bytes_long_refuted`.  
Note: objects longer than 4096 bytes have no to_bytes; an integer id is reversed on an archive of the other byte order: both refuted.

**C42 Recursive types** (proved; `Thm/Items.v`)  
Modelled: `des` with references, fuel = stack depth.  
Proof: fuel monotonicity; a family of inputs exceeding every depth.  
Theorems: `more_stack_same_result`, `no_depth_limit`, `recursive_round_trip`.

**C43 Archive positioning options** (proved; `Thm/Output.v`)  
Modelled: `Model/Options.v`.  
Proof: case analysis over option lists.  
Theorems: `run_option_position_valid`, `construct_position_valid`, `run_option_resize`, `append_preserves`, `out_position_beyond_ub`.

**C44 Failed output leaves a usable archive** (proved; `Thm/Output.v`, `Thm/RetryBits.v`)  
Modelled: `ser`.  
Proof: same invariant as C02 for failures. With bitsets: the retry is compared with a run from a clean buffer of the same size (`sim`, induction on the value); every byte behind the position is zero or already the byte of the encoding, and or-ing the bits in again changes neither.  
Theorems: `out_failure_prefix`, `out_retry_after_failure`, `out_again_after_failure`, `out_again_others_refuted`.  
Refuted: writing other items at the old position, when they hold bitsets.

**C45 Types declaring a protocol inside bulk-copied aggregates** (proved; `Thm/PbNative.v`)  
Modelled: `Model/PbNative.v`.  
Proof: both encodings characterised and compared.  
Theorems: `pb_raw_differs`, `pb_vec_raw`, `pb_vec_raw_round_trip`, `pb_vec_protocol`, `pb_vec_protocol_round_trip`, `pb_vector_list_refuted`.  
Note: stated for containers; an array is the same code without the count (Some SzNone).

**C46 The reader accepts exactly the documented language** (proved; `Thm/Grammar.v`)  
Modelled: `des`, `in_call` against `Spec/Grammar.v`.  
Proof: induction on fuel and type in both directions: success iff the input has a representation at the position.  
Theorems: `in_accepts_only_representations`, `in_accepts_every_representation`, `in_rejects_only_malformed`.  
Note: grammar: Spec/Grammar.v; unsized containers, spans and views of the rest excluded (they take their extent from the target or the input).

**C47 Encodings are uniquely decodable** (proved; `Thm/Grammar.v`)  
Modelled: `Spec/Grammar.v`, `encode`.  
Proof: mutual induction on derivations.  
Theorems: `representation_unambiguous`, `encoding_is_representation`, `encoding_prefix_free`, `unsized_ambiguous_refuted`.  
Note: containers without a size: refuted.

**C48 Reading and writing again gives the same bytes** (proved; `Thm/Grammar.v`)  
Modelled: `des`, `encode`.  
Proof: the grammar restricted to canonical types is a function of the value.  
Theorems: `in_reencode_identity`, `in_reencode_refuted`.  
Note: each excluded kind of type is refuted by two inputs.

**C49 apply calls the function with the arguments read** (proved; `Thm/Apply.v`)  
Modelled: `apply`, `answer`, `call_plain`.  
Proof: from C01 and C10, by cases on the result of reading the parameters.  
Theorems: `apply_calls`, `apply_errc`, `apply_any_input`, `apply_without_parameters`, `server_calls_apply`, `apply_errc_success_refuted`.  
Note: functions with parameters returning errc: apply_errc, refuted as a faithful call.

**C50 value_or_errc keeps what it was given** (proved; `Thm/Apply.v`)  
Modelled: `Model/Apply.v`'s union with a flag.  
Proof: induction on the moves.  
Theorems: `voe_faithful`, `voe_wrong_member_undefined`, `voe_default_refuted`.

**C51 Compile-time checks on ids and field numbers** (proved; `Thm/Traits.v`)  
Modelled: `Model/Traits.v`.  
Proof: the folds are shown equivalent to NoDup / equality of types; list induction.  
Theorems: `unique_ids_exact`, `unique_exact`, `same_id_types_exact`, `default_ids`, `id_of_index`, `index_of_id`, `index_of_other`, `visit_exact`, `index_by_type_exact`, `index_by_type_refuted`, `variant_checked`, `variant_compiles_iff`, `pb_checks_numbers`, `checked_message_wf`, `number_bound_unchecked_refuted`.  
Note: variant_checked and checked_message_wf give the well-formedness hypotheses of the other theorems.

**C52 Overload selection is total and unambiguous** (proved; `Thm/Dispatch.v`)  
Modelled: `Model/Dispatch.v`.  
Proof: the concepts as boolean functions; case analysis, and a lemma on the resolution of the viable list.  
Theorems: `some_overload_viable`, `explicit_serialize_first`, `protocol_selected`, `shape_selected`, `plain_selected`, `selected_fits`, `std_selected`, `rvalue_array_refuted`, `two_shapes_refuted`, `pointer_serialize_refuted`.

**C53 No member is silently skipped** (proved; `Thm/Dispatch.v`)  
Modelled: `number_of_members`, `visit_members`.  
Proof: the chain of initialisers finds the largest accepted count; a binding with another number of names does not compile.  
Theorems: `no_member_skipped`, `members_detected`, `too_many_members`, `declared_zero_refuted`.

**C54 The output buffer grows geometrically** (proved; `Thm/Growth.v`)  
Modelled: `ser` equals the run of a script of elementary writes that does not mention buffer or allocator (`Proofs/Script.v`); `enlarge_for` with its wrapping arithmetic.  
Proof: exact analysis of `enlarge_for`, induction over scripts; sums and counts of geometric sequences.  
Theorems: `growth_geometric`, `growth_amortised`, `exact_growth_refuted`.  
Note: The requests are observed through the allocator: asks f st ns says that the action succeeds with every allocator granting ns and throws with any that refuses one of them. Sizes of the buffer are counted, not capacity: a container that keeps spare capacity reallocates at most as often..

**C55 Explicitly counted raw bytes** (proved; `Thm/Raw.v`)  
Modelled: `out_raw`, `in_raw` on the memory of the items, sizes modulo 2^64.  
Proof: `out_raw` equals the bulk write of `Model/Out.v`; case analysis.  
Theorems: `raw_written`, `raw_read`, `raw_round_trip`, `raw_beyond_refuted`, `raw_wrap_refuted`, `raw_position_refuted`.  
Note: Run-time path (memcpy). The memory of the items is a list of bytes; access outside of it is the outcome RUB..

**C56 Variant ids supplied at run time** (proved; `Thm/Raw.v`)  
Modelled: `des_dynamic`.  
Proof: unfolding against the variant reader; round trip theorem of C01.  
Theorems: `dynamic_id_split`, `dynamic_id_round_trip`, `dynamic_id_unknown`.  
Note: Input only: basic_out has no serialize_one(variant, id), so known_id(id, variant) does not compile on output..

**C57 An input and an output archive over one vector are a queue of values** (proved; `Thm/Duplex.v`)  
Modelled: `pipe`, `pipe_write`, `pipe_read`, `pipe_run`.  
Proof: invariant: the bytes between the two positions are the encodings of the queue; write and read lemmas of C01, C02.  
Theorems: `duplex_fifo`, `data_in_out_empty`, `duplex_early_read`, `duplex_stops`, `duplex_retry_refuted`.  
Note: Growable buffer, fitting enlarger, self-delimiting types. The abstract queue (Spec/Fifo.v) does not mention bytes..

**C58 What a failed read leaves in its targets** (proved; `Thm/Failure.v`)  
Modelled: `des`, `in_call` of `Model/In.v`.  
Proof: structural induction on the type, on the stack depth for named classes.  
Theorems: `in_failure_targets`, `in_failure_unchanged`, `in_failure_assoc`, `in_failure_unchanged_refuted`.  
Note: The permitted states (Spec/Torn.v) do not mention bytes, positions or the reader..

**C59 What a read can make the program hold is bounded by what it consumes** (proved; `Thm/Resource.v`)  
Modelled: `des` through the grammar `denotes` of Spec/Grammar.v.  
Proof: mutual induction on the grammar.  
Theorems: `in_elements_bounded`, `in_elements_refuted`, `in_amplification_refuted`.  
Note: Types that determine their own extent. The memory requested during the call is limited by alloc_limit only (C11)..

**C60 Types with the same wire format may stand for each other** (proved; `Thm/Compat.v`)  
Modelled: `out_call`, `in_call`; correspondence `convs`.  
Proof: mutual induction: the encoding of the one is a representation (Spec/Grammar.v) of the other; then C02 and C46.  
Theorems: `interchangeable`, `varint_widening_refuted`.  
Note: The correspondence (Spec/Compat.v) is an inductive relation on types and values that does not mention bytes. Memory, stack and alloc_limit may still stop the reader..

**C61 Protobuf messages mean the same to the library and to a conforming parser** (proved; `Thm/PbStd.v`)  
Modelled: `ser_pb_item`, `des_fields`; rules `std_message` of Spec/PbStd.v.  
Proof: induction on the value (writing), rule induction into Spec/PbMerge.v and `pb_reads_records` (reading), injectivity of the record syntax (uniqueness).  
Theorems: `pb_written_standard`, `pb_reads_standard`, `std_message_unique`, `shared_is_standard`, `pb_negative_int32_refuted`, `pb_int32_as_int64_refuted`, `pb_bool_varint_refuted`, `pb_embedded_twice_refuted`, `pb_packed_twice_refuted`, `pb_map_duplicate_refuted`.  
Note: The rules are the inductive relation std (Spec/PbStd.v), proved to determine its result. Overlong varints and groups are outside the record syntax; skipping unknown fields is refuted under C33. std::byte members, multimaps and wide strings have no protobuf counterpart and are excluded..

**C62 Self-referencing classes are recognised** (proved; `Thm/SelfRef.v`)  
Modelled: `self_ref`, `type_references`, `inlined` on class environments.  
Proof: well-founded induction on the parts of a type; the visited list cannot be hit.  
Theorems: `self_referencing_exact`, `self_reference_interrupts`, `recursion_recognised_refuted`.  
Note: What a compiler does with such a cycle (gcc reports an error unless ZPP_BITS_INLINE_MODE is 0) is outside the model..

**C63 A damaged protobuf message leaves the records before the damage** (proved; `Thm/PbBreak.v`)  
Modelled: `des_fields`, `des_field`, `des_nested`, `des_pb_item` against the relation `breaks` of Spec/PbBreak.v.  
Proof: mutual induction over `breaks_field`/`breaks`, on top of `reader_merges`.  
Theorems: `pb_damaged`, `pb_first_damaged`, `pb_damaged_item`.  
Note: Damage in a container of multi-byte strings, and in packed fixed-width numbers of a non-contiguous container or on a big-endian host, is not described (those are read element by element).  Data shorter than 2^63 bytes..

**C64 The first option of a kind decides** (proved; `Thm/Options.v`)  
Modelled: `config`, `construct` of Model/Options.v.  
Proof: induction over option lists.  
Theorems: `first_size_decides`, `first_limit_decides`, `first_enlarger_decides`, `switches_decide`, `options_of_a_kind_decide`, `run_options_in_order`.

**C65 Relaying never needs more room** (proved; `Thm/Reencode.v`)  
Modelled: `des` of Model/In.v against `ser` of Model/Out.v.  
Proof: induction over the grammar of accepted inputs (Spec/Grammar.v): the writer form is the shortest representation and is itself a representation.  
Theorems: `in_reencode_no_longer`, `relay_fits`, `relay_reads_back`.  
Note: zig_zag over an unsigned type is excluded: reencode_longer_refuted..

**C66 Null pointers and valueless variants stop the output, nothing else does** (proved; `Thm/Nulls.v`)  
Modelled: `ser` of Model/Out.v against the relation `holed` (Spec/Whole.v), which knows nothing of the writer.  
Proof: equivalence of `holed` with the point where the encoding stops, by induction over values; then the emission theorem.  
Theorems: `out_null_exact`, `out_null_never_written`, `out_null_stops`.

**C67 Each error code of reading has exactly its documented cause** (proved; `Thm/Errors.v`)  
Modelled: `in_call` of Model/In.v against the relation `fails` (Spec/Fault.v): which fault an input has, by the grammar alone.  
Proof: one judgement relating result and faults, carried through every type, loop and the recursion of named classes.  
Theorems: `in_error_exact`, `in_error_codes`.  
Note: Types of Spec/Grammar.v (no unsized containers); targets of the right type..

**C68 Reading neither leaks memory nor frees it twice, whichever allocation fails** (proved; `Thm/Heap.v`)  
Modelled: `hin_call` of Model/Heap.v: the reader once more, over objects that carry the blocks they own, a heap that counts allocations, and an arbitrary set of refused allocations.  
Proof: a frame invariant (live blocks = blocks owned + frame, as multisets) together with the relation to Model/In.v, carried through every loop and type, the fuel of named classes and any sequence of calls; separately, that a refusal is the last allocation of the call and its outcome.  
Theorems: `in_ownership`, `in_refusal_throws`, `in_heap_refines`, `in_lifetime`.  
Note: Types without spans whose value-initialised classes own nothing; a shared_ptr target is the only owner of its pointee.

**C69 The messages the protobuf reader accepts are exactly those of a stated language** (proved; `Thm/PbLang.v`)  
Modelled: `des_fields`, `des_field`, `des_pb_item` of Model/Pb.v.  
Spec: `takes`, `takes_all`, `message_takes` of Spec/PbGrammar.v, relations between bytes and values without loops, buffers, outcomes or memory.  
Proof: each reader decides its relation (success exactly on what the relation gives, which is unique; any other failure than a refused allocation means that no derivation exists); combinators for sequences, choices and clamped parts; induction on the nesting bound and the length of the input.  
Theorems: `pb_accepts_only`, `pb_accepts_every`, `pb_one_result`, `pb_rejects_only`, `pb_item_language`, `pb_wire_type_unused`, `pb_wire_type_refuted`, `pb_packed_end_refuted`, `pb_packed_length_refuted`, `pb_packed_rest_refuted`.  
Note: the refutations are the places where the language is larger than protobuf; C61 has those where it is smaller.

**C70 Classes with a serialize function of their own** (proved; `Thm/Custom.v`)  
Modelled: `prog` (a function as a tree of what it does with the archive), `cser`, `cdes` of Model/Custom.v.  
Spec: `xenc` and `path` (the encodings of the items transferred, one after the other), `mirrors` (two functions transferring the same items), `sound` (functions that compile), `causal` and `complete` (the rule for authors) of Spec/CustomWire.v.  
Proof: writing, induction on the object with an inner induction on the function; reading, `des_ty` is parametric in the reader of named classes, so its safety, locality and round trip lemmas serve for any function, by induction on the nesting bound and on the function.  
Theorems: `custom_wire_format`, `custom_result_fixed`, `custom_result_growable`, `custom_out_frame`, `custom_read_safe`, `custom_consumed_only`, `custom_truncated_rejected`, `custom_round_trip`, `custom_mirror`, `custom_causal_readable`, `custom_in_order_is_default`, `custom_round_trip_any_function_refuted`, `custom_failure_atomic_refuted`.  
Left out: functions that move the position of the archive (C83), locals that are of classes with such a function (C84), the memory an assignment takes.

**C71 Views into a vector that is written to as well** (proved; `Thm/Alias.v`)  
Modelled: blocks of memory, capacity, views, `deref`, `copy_view`, `aout_call`, `rd_items`, `arun` of Model/Alias.v; the capacity after a reallocation is any function with room for the bytes.  
Spec: `crun` of Spec/Copies.v (the same program with every view a copy of its bytes), `proper` (the program is in order for copies), `left_behind` (a view into a block the vector has left).  
Proof: simulation of the two machines: the bytes a view was made from stay what they are because writing only appends to a fitted vector; the length the vector reaches is bounded by the position (`ser_stretch`, from the growth lemmas of C54).  
Theorems: `views_like_copies`, `views_unmoved`, `views_until_write`, `views_survive_reserved`, `view_write_exact`, `view_echo_refuted`, `view_spare_refuted`, `view_overlap_refuted`.  
Left out: views inside classes and containers, std::deque-like growable storage, other iterators into the vector.

**C72 An archive whose position is moved is a file with a cursor** (proved; `Thm/Seek.v`)  
Modelled: `seek_out`, `seek_in`, `processed`, `remaining_of`, `srun` of Model/Seek.v over the archives of Model/Duplex.v.  
Spec: `pwrite`, `frun` (the file), `placed` (positions in the file), `spares` (bytes no write touches) of Spec/File.v.  
Proof: a call writes a prefix of the encoding (C02, C44); the buffer has grown only if the position has reached the old end (`ser_edge`, induction on what is written), and then it is fitted; induction on the program.  
Theorems: `seek_call`, `seek_file`, `seek_record`, `seek_succeeds`, `seek_patch`, `seek_accessors`, `seek_beyond_refuted`, `seek_read_beyond_refuted`, `seek_varint_refuted`, `seek_bitset_refuted`.  

**C73 The work of a read is linear in what it consumes** (proved; `Thm/Cost.v`)  
Modelled: `work`, `in_work` of Model/Cost.v: the calls Model/In.v makes, counted together with the bytes they pass and the bytes of the objects they create.  
Spec: `price` (constant of a type), `fair` (the rate is enough for the elements, contents and alternatives of a type), `nest` (vectors inside vectors).  
Proof: amortised: an object that must take bytes leaves the rate for them to pay for its own creation, so nesting does not add up; a failing call leaves one chain of unfinished vectors behind, each of which has consumed a size prefix. Induction on the type, then on the stack depth.  
Theorems: `in_work_linear`, `in_work_limited`, `work_announced_refuted`, `work_weightless_refuted`.  
Left out: comparisons and hashes of insertions, destruction of what the targets held; protobuf messages are C75.

**C74 What reading a protobuf message can hold is bounded by what it consumes** (proved; `Thm/PbHold.v`)  
Modelled: `des_pb_item` of Model/Pb.v, as for C32.  
Spec: `contents` (bytes of fundamentals and number of other elements in the containers of an object, at all levels), `kept` (what the message members hold), `bare` (value-initialised messages hold nothing).  
Proof: every element is paid by its own bytes or, for strings, messages and map entries, by its tag; a record that fails while a container is resized is the last one. Induction on the member type, the iterations of the field loop and the depth.  
Theorems: `pb_contents_bounded`, `pb_contents_limited`, `pb_announced_refuted`, `pb_defaults_refuted`.

**C75 The work of reading a protobuf message is linear in what it consumes** (proved; `Thm/PbCost.v`)  
Modelled: Model/PbCost.v counts the steps of every function of Model/Pb.v that reads; which calls are made is taken from Model/Pb.v.  
Spec: `modest_env P obj B` (B bounds the members of a message and the sizes of the objects), the count itself.  
Proof: potential argument: what the containers hold pays for being moved by a resize that then fails; a reserve that moves elements is paid by its own length, which is longer than what is moved. Induction on the member type, the iterations of the field loop and the depth.  
Left out: comparisons and hashes of insertions, moves of push_back, destruction of what containers held.  
Theorems: `pb_work_linear`, `pb_work_limited`, `pb_work_announced_refuted`, `pb_packed_request`.

**C76 How much stack reading nested protobuf messages takes** (proved; `Thm/PbStack.v`)  
Modelled: `des_fields` of Model/Pb.v; its fuel counts the messages that are entered, `RStack` is running out.  
Spec: `branch n` and `branch_bytes n`, a tree with one branch and its encoding, defined directly.  
Proof: every nested message lies behind a tag and a size of one byte at least, so two bytes shorter data remain; induction on the fuel. Monotonicity: simulation between two amounts of fuel.  
Theorems: `pb_stack_sufficient`, `pb_more_stack_same`, `pb_stack_immaterial`, `pb_no_depth_limit`.

**C77 Writing moves a nested protobuf message once per level** (proved; `Thm/PbMoves.v`)  
Modelled: Model/PbMoves.v counts the bytes moved by every function of Model/Pb.v that writes; states and outcomes are those of Model/Pb.v.  
Spec: `moved`, `inside` (lengths of the nested messages on the wire), `levels`.  
Proof: each action is given what it writes and what it moves; sequences add both, a message adds its length. Induction on the height of the object.  
Theorems: `pb_moves_exact`, `pb_moves_levels`, `pb_moves_short`, `pb_moves_quadratic`, `pb_moves_linear_refuted`.

**C78 Reading protobuf messages neither leaks memory nor frees it twice, whichever allocation fails** (proved; `Thm/PbHeap.v`)  
Modelled: Model/PbHeap.v, the functions of Model/Pb.v that read once more, over objects that carry the blocks they own; capacity of a buffer is an arbitrary function of the block, any allocation may be refused.  
Spec: `exact_heap` (C68), `message`, `schema`.  
Proof: every function preserves 'live = owned by the object, the temporaries and others' as a multiset equation, and either simulates Model/Pb.v with all allocations granted, or stops with the first that is refused. Induction on the member type, the iterations of the field loop and the depth.  
Theorems: `pb_ownership`, `pb_refusal_throws`, `pb_heap_refines`, `pb_lifetime`, and that buffers with enough space are used again: `pb_element_in_place`, `pb_packed_in_place`.

**C79 A remote function that throws does not disturb the calls around it** (proved; `Thm/RpcThrow.v`)  
Modelled: Model/RpcThrow.v, the server of Model/Rpc.v with functions that may throw, a server that catches everything and goes on, a client that asks for several responses.  
Spec: `play`: the functions run one after the other on the state, giving results and answers; no bytes.  
Proof: the requests form a queue of wire images (C37); each serve consumes the first and appends at most one answer. Induction on the calls.  
Theorems: `rpc_throw_served`, `rpc_throw_survived`, `rpc_throw_data`, `rpc_without_throw`, `rpc_throw_misattributed_refuted`, `rpc_unknown_resumed_refuted`.

**C80 Whole archive calls have the same effect at compile time and at run time** (proved; `Thm/ConstCalls.v`)  
Modelled: Model/ConstCalls.v: out, in and protobuf once more with the constant-evaluation branches (Model/Loops.v) in place of the others; the byte type of the archive may be a signed char; any contents of uninitialised arrays.  
Proof: C20 for the single steps, then induction on values and types; the sign bits of a byte are masked in decode_varint.  
Theorems: `const_out_call`, `const_in_call`, `const_pb_out`, `const_pb_in`.

**C81 Serialize functions that throw** (proved; `Thm/CustomThrow.v`)  
Modelled: Model/Custom.v (`PThrow`), `cout_call` for out::operator(); the theorems of C70 hold for functions that throw as well.  
Spec: `returning e p`, the function that returns `e` where `p` throws.  
Proof: a relation between the two runs, by induction on values (output) and on types, programs and depth (input).  
Theorems: `custom_throw_out`, `custom_throw_in`, `custom_throw_fixed`, `custom_throw_usable`, `custom_throw_reread`, `custom_call_size`, `custom_throw_tail_stays`, `custom_throw_trim_refuted`.

**C82 Protobuf messages inside ordinary data** (proved; `Thm/Mixed.v`, `Thm/MixedNull.v`)  
Modelled: Model/Mixed.v: serialize_one of both kinds of archive with named classes that are ordinary classes or messages; reading reuses `des_ty` of Model/In.v and `des_pb_item` of Model/Pb.v. `classes` gives the members of messages as ordinary members, so that one notion of valid object serves both.  
Spec: `menc` (Spec/MixedWire.v): the ordinary encoding with `message_item`, length and records, at messages.  
Proof: induction on values for output and round trip, with the theorems about single messages (C30, C31) at messages; `des_ty_safe` (C09) with the safety of messages (C32) as its hypothesis about named classes; `mixed_none_*`: without messages the model is that of C02 and C09.  
Theorems: `mixed_output`, `mixed_null_stops`, `mixed_none_out`, `mixed_none_in`, `mixed_safe`, `mixed_message_extent`, `mixed_round_trip`, `mixed_big_endian_refuted`, `mixed_no_size_refuted`, `mixed_truncation_detected_refuted`.

**C83 Serialize functions that move the position of the archive** (proved; `Thm/CustomSeek.v`)  
Modelled: Model/CustomSeek.v: the functions of C70 and C81 with three more steps: ask for the position, set it, ask an input archive how much is left. `patched` and `framed` are the usual writer and reader of a length that is filled in afterwards.  
Spec: Spec/CustomFile.v: a list of puts and seeks (`tenc`), what it does to a file (`play`), `seated` (never past the end), `nets` and `tidy` (amounts to one piece of bytes), `within` (a reader that checks), `frame_wire` (frames with the length known in advance).  
Proof: every action leads to a prefix of its operations (`leads`), closed under sequencing because the buffer is always the file and zeros after it; `moving_tidy` by induction on values; round trip through `run_in_round` of C70, which takes any reader of nested classes; safety as in C09 without the claim that the position grows. `moving_none`: without moves the model is that of C70 and C81.  
Left out: what an output archive's remaining_data() says, access to bytes through data().  
Theorems: `moving_output`, `moving_fixed`, `moving_growable`, `moving_call`, `moving_none`, `moving_tidy`, `moving_frame_tidy`, `moving_frame_wire`, `moving_frame_round_trip`, `moving_frame_skip`, `moving_read_safe`, `moving_frame_safe`, `moving_keeps_everything_refuted`, `moving_past_end_refuted`, `moving_unchecked_length_refuted`, `moving_frame_short_length_refuted`.

**C84 Classes serialized through objects of other classes** (proved; `Thm/Surrogate.v`)  
Modelled: Model/Surrogate.v: the functions of C70 and C81 with locals of any type, also of classes with such functions (`wser` and `pser`, `pdes`); `through` is a function that converts to another class and back.  
Spec: Spec/SurrogateWire.v: the encoding `penc`, a partial function of the depth of calls; `spells` for some depth; `psound` is `sound` of C70 without the restriction on locals.  
Proof: induction on the depth, inside of it on values (`pser_emits`); the depth only matters for whether there is a result (`penc_mono`, `pser_am`, `pdes_fuel`), and success of writing implies that the encoding is defined (`pser_tells`). Reading as in C70, whose lemma on functions takes any reader of locals. `surrogate_none`: without such locals the model is that of C70.  
Left out: moving the position (C83) in the same function.  
Theorems: `surrogate_wire_format`, `surrogate_fixed`, `surrogate_growable`, `surrogate_frame`, `surrogate_stack`, `surrogate_none`, `surrogate_read_safe`, `surrogate_consumed_only`, `surrogate_round_trip`, `surrogate_conversion_wire`, `surrogate_conversion_round_trip`, `surrogate_conversion_all_or_nothing`, `surrogate_terminates_refuted`, `surrogate_lossy_refuted`.

**C85 The work of writing** (proved; `Thm/OutCost.v`)  
Modelled: Model/OutCost.v: `cost` repeats `ser` branch by branch and counts; `mv` is an arbitrary answer to whether the container moves its bytes.  
Spec: Spec/Visits.v: `objects` of a value and `visits`, the objects that are not copied as part of another.  
Proof: the cost is the number of visits and the toll of the script of the value (Proofs/Script.v), by induction on the value (`cost_counts`). The toll is paid for by the length of the buffer (`paid`): an enlargement multiplies it by more than the factor, so with m/d the potential m * length covers (m - d) times what was initialised and moved (`run_paid`). How long the buffer gets is C54.  
Refuted: fitting cuts the buffer back to the position, so the next call enlarges it again; `byte_calls` computes the sum.  
Theorems: `out_work_exact`, `out_work_linear`, `out_work_any_factor`, `visits_objects`, `out_calls_linear`, `out_calls_quadratic`, `out_calls_linear_refuted`, `out_work_in_bytes_refuted`.

**C86 Servers with coroutines** (proved; `Thm/RpcCo.v`)  
Modelled: Model/RpcCo.v, call_binding_throwing, serve() and serve(id), response(); whether a coroutine runs when called or when awaited is a parameter.  
Spec: the server of C79 for the table in which every coroutine is replaced by the function that returns its value and throws its error (`settled`).  
Proof: case by case for one binding (`cocall_agree`), then by induction on the table; the rest from C79 and C36.  
Refuted: with concrete tables; `co_void_parameters` says exactly what happens to coroutines without a value that have parameters.  
Theorems: `co_serve_eager`, `co_transparent`, `co_served`, `co_error`, `co_returns`, `co_void_awaited`, `co_void_parameters`, `co_opaque_data`, `co_void_error_refuted`, `co_void_runs_refuted`, `co_errc_refuted`, `co_serve_late_refuted`.

**C87 Width of std::size_t** (proved; `Thm/Narrow.v`)  
Modelled: Model/Narrow.v, the arithmetic of enlarge_for and of the checks for room modulo 2^W, and the conversion of sizes read to std::size_t.  
Spec: the model with 64 bits, of which all other properties speak.  
Proof: reading by induction on the type, from a bound on every size that is read (`size_fits`); safety with size types of any width as in C09; writing by simulation of the elementary steps (`run_sim`): the check `required * m / m == required` is exactly `required * m < 2^W` (`mul_check`), and with a divisor of at most 2 what it refuses is at least half of the address space.  
Refuted: with concrete buffers and inputs on a 32-bit platform.  
Theorems: `narrow_in`, `narrow_in_call`, `narrow_in_agree`, `narrow_enlarge`, `narrow_out`, `narrow_out_ok`, `narrow_round_trip`, `narrow_truncates_refuted`, `narrow_unchecked_refuted`, `narrow_enlarger_refuted`.

**C88 Containers whose size type is signed** (proved; `Thm/SignedSize.v`)  
Modelled: Model/SignedSize.v, the reading functions of Model/In.v with the conversion of the size read to std::size_t (`extend`).  
Spec: `negative` (the number read has the sign bit of its type), `greadable` (counts below half of the range); the wire format and safety as for C02 and C04.  
Proof: safety and round trip by induction as in Proofs/InSafe.v and Proofs/InRound.v; a negative size becomes at least 2^63 (`negative_huge`), which no allocation, input or span has.  
Refuted: 200 bytes with a size of type signed char.  
Theorems: `signed_none_same`, `signed_in_safe`, `signed_negative_vec`, `signed_negative_view`, `signed_negative_span`, `signed_negative_assoc`, `signed_round_trip`, `signed_char_either`, `signed_round_trip_refuted`.

**C89 Protobuf messages on platforms with another width of size_t** (proved; `Thm/PbNarrow.v`)  
Modelled: Model/PbNarrow.v, the reading functions of Model/Pb.v with lengths of type vsize_t of any width and the sum length + position of that width.  
Spec: Spec/PbMerge.v, which does not know of widths; C31 and C32.  
Proof: that of Proofs/PbRead.v and Proofs/PbIn.v for any width; a length in data shorter than 2^(8z) bytes is itself below 2^(8z), so it is read as written and the sum does not wrap.  
Refuted: two messages of eleven and eight bytes.  
Theorems: `pb_width_same`, `pb_width_safe`, `pb_width_records`, `pb_width_round_trip`, `pb_width_round_trip_unsized`, `pb_width_clamped_refuted`, `pb_width_wraps_refuted`.

**C90 A message that arrives in pieces can be read by trying again** (proved; `Thm/Pieces.v`)  
Modelled: Model/Pieces.v, the loop of a program that appends the next piece on result_out_of_range and reads again into the same items, and the same for a sequence of messages; the library is that of Model/In.v.  
Spec: the answer for all data at once (`in_call`); `written`, what one call of the sender appended.  
Proof: Proofs/InStable.v, by induction on the type and the stack: every function that reads gives result_out_of_range or the same with more data (`settled`); then induction on the pieces with C10 (targets stay valid), C12 (consumed bytes only) and C14 (previous contents do not matter).  
Refuted for spans (result_out_of_range means two things) and for views of the rest.  
Theorems: `answer_final`, `too_short_means_more`, `pieces_same_answer`, `pieces_stop`, `pieces_round_trip`, `pieces_stream`, `pieces_span_refuted`, `pieces_rest_refuted`.

**C91 Protobuf messages that arrive in pieces** (proved; `Thm/PbPieces.v`)  
Modelled: Model/PbPieces.v, a program that waits for the bytes announced, the same for a sequence of messages, and the simpler program that tries at once.  
Spec: the answer for all data at once (`des_pb_item`); `pb_appended`, what the sender appended.  
Proof: reading a size is settled by the bytes there (Proofs/InStable.v); the nested archive has the announced bytes only; induction on the pieces; C31 for what was written.  
Refuted for the simpler program by the demo message without its last record.  
Theorems: `pb_announced_only`, `pb_pieces_same`, `pb_pieces_incomplete`, `pb_pieces_round_trip`, `pb_pieces_stream`, `pb_pieces_retry_refuted`.

**C92 Remote procedure calls that arrive in pieces** (proved; `Thm/RpcPieces.v`)  
Modelled: Model/RpcPieces.v, a server that tries again on result_out_of_range; serve() is that of Model/Rpc.v, its log has the functions called.  
Spec: serving from all of the data (`serve`), the function itself.  
Proof: C90 for the id and for the arguments; induction on the pieces; C36 for requests of the client, C05 for growable archives.  
Refuted: a response archive without room, a function returning the code, an opaque function.  
Theorems: `rpc_serve_settled`, `rpc_pieces_same`, `rpc_pieces_served`, `rpc_growable_conclusive`, `rpc_pieces_response_refuted`, `rpc_pieces_errc_refuted`, `rpc_pieces_opaque_refuted`.

**C93 Objects with a serialize function that arrive in pieces** (proved; `Thm/CustomPieces.v`, `Proofs/CustomStable.v`)  
Modelled: Model/CustomPieces.v, the loop of C90 with an item whose classes have functions as in Model/Custom.v.  
Spec: one read of all of the data (`cdes`), the object written.  
Proof: the lemma of C90 takes any reader of named classes; for functions, induction on the function; then induction on the pieces, C70 for objects written.  
Refuted: a function that counts its calls in the object; a function that answers result_out_of_range itself.  
Theorems: `custom_answer_final`, `custom_too_short_means_more`, `custom_pieces_one_read`, `custom_pieces_stop`, `custom_pieces_round_trip`, `custom_pieces_same_object_refuted`, `custom_pieces_own_code_refuted`.

**C94 Growing to exact sizes** (proved; `Thm/FitExact.v`)  
Modelled: enlarge_for, out_call, ser of Model/Out.v (1966-2000, 2443-2456, 1662-1695).  
Spec: the length of the buffer compared with the position.  
Proof: an invariant on the output state (at most B bytes behind the position), kept by every write and by sequencing, then induction on the value; B = 0 without varints, B = 18 with them.  
Refuted: README 1042, exact_enlarger grows "to exact size every time".  
Theorems: `enlarger_fits`, `exact_enlarger_fits`, `exact_enlarger_spare`, `exact_enlarger_fits_refuted`.

**C95 Protobuf messages read again after memory ran out** (proved; `Thm/PbAgain.v`)  
Modelled: Model/PbAgain.v, a loop around the reader of Model/PbHeap.v (4929-4983, 3095-3122).  
Spec: the message written, the position after it, the blocks the object owns; `content_at`.  
Proof: des_nested adds to the position only when deserialize_fields returns; C78 for what an attempt leaves; C31 for the attempt that succeeds, from whatever object; every attempt that throws uses up a refused allocation.  
Refuted: with a size, calling again without setting the position back.  
Theorems: `pb_exception_position`, `pb_refused_position`, `pb_again_unsized`, `pb_again_result`, `pb_again_succeeds`, `pb_again_position_refuted`.

**C96 Objects read again after memory ran out** (proved; `Thm/InAgain.v`)  
Modelled: Model/InAgain.v, a loop around the reader of Model/Heap.v (2532-2535, 2547-2550).  
Spec: one read of the data without heap (`in_call`), the values written, the blocks the items own.  
Proof: C68 for what an attempt leaves, C14 for the attempt that decides, C01 for values written; every attempt that throws uses up a refused allocation.  
Refuted: calling again without setting the position back.  
Theorems: `in_again_one_read`, `in_again_ends`, `in_again_round_trip`, `in_again_position_refuted`.

**C97 Objects written again after memory or room ran out** (proved; `Thm/OutAgain.v`, `Thm/Again.v`)  
Modelled: Model/OutAgain.v, a loop around `out_call` (1940-1943, 2443-2456).  
Spec: the wire format (`encode`, `writable`), plain bytes of the buffer.  
Proof: after any attempt each byte from the position on is zero or the byte of the encoding (`tried`); an attempt from there runs as one from a clean buffer of the same size does (`ser_sim`, C44); fitting the buffer only cuts; induction on the attempts.  The reader of C96 then gets the objects as they were, running out of memory itself (`again_round_trip`).  
Refuted: calling again without setting the position back.  
Theorems: `out_again_written`, `out_again_ends`, `again_round_trip`, `out_again_position_refuted`.

**C98 Data with protobuf messages written again after memory or room ran out** (proved; `Thm/MixedAgain.v`, `Thm/MixedAgainRead.v`)  
Modelled: Model/MixedAgain.v, a loop around the writer of Model/Mixed.v with the fitting of out::operator() (1940-1943, 2443-2456).  
Spec: `menc` (Spec/MixedWire.v), the first bytes of the buffer.  
Proof: a failed attempt leaves the bytes before the position (`framed`), the one that ends writes the encoding whatever it finds (`mixed_null_stops`); induction on the attempts.  What was written is read back as in C82.  
Refuted: calling again without setting the position back.  
Theorems: `mixed_again_written`, `mixed_again_ends`, `mixed_again_round_trip`, `mixed_again_position_refuted`.

**C99 Output over old bytes** (proved; `Thm/Dirty.v`)  
Modelled: `ser`, `out_call` (Model/Out.v).  
Spec: the wire format, single bytes.  
Proof: a run over old bytes is compared with one over zeros (`sim` of `Thm/RetryBits.v`): same status, position and size after every action, and every byte written is that of the clean run or that or-ed into the old byte; C02 and C44 for the clean run.  
Theorems: `out_any_contents`, `out_call_any_contents`, `out_over_old_bytes`.

## 3. Findings: where a property fails

Every line is a theorem with a concrete witness (or a family of them), so the failure is a fact about the
model; the cited code was re-read to make sure it is a fact about the code.

* `enlarge_shrinking_refuted` (C06): with enlarger<Mul, Div>, Mul < Div, `enlarge_for` succeeds without making room, so the write that follows is out of bounds.
* `enlarge_unchecked_refuted` (C06): with no_enlarge_overflow the growth arithmetic can wrap and the room is not there.
* `out_call_overgrowth_refuted` (C07): writing a varint inside existing data can leave the buffer longer than the old data and the position (it reserves the maximal varint size).
* `in_bool_refuted` (C09): a bool is read by copying a byte; 2..255 give an object that is not a value of bool.
* `in_rest_view_refuted` (C12): an unsized const view depends on bytes appended to the input.
* `in_unsized_target_refuted` (C14): containers without a size and mutable spans depend on the previous target.
* `zigzag_unsigned_refuted` (C17): zig_zag on an unsigned type does not round-trip.
* `out_native_host_dependent_refuted` (C18): without a byte order option the bytes depend on the host.
* `bulk_empty_class_refuted` (C19): containers of empty classes are written as one byte per element by memory copy and as nothing member-wise.
* `known_id_not_default_constructible_refuted` (C24): reading known_id of an alternative that is not default constructible runs off the end of a value-returning function.
* `known_id_other_alternative_refuted` (C24): writing known_id of an alternative other than the active one dereferences a null pointer.
* `bitset_dirty_buffer_refuted` (C26): bits are OR-ed into the buffer, so writing over non-zero bytes gives another bitset.
* `protocol_swapped_prefix_refuted` (C29): the size prefix of a protocol message is patched in host order even when the archive swaps bytes.
* `protocol_truncated_prefix_refuted` (C29): a one byte size drops the high bits of the length.
* `protocol_narrow_varint_refuted` (C29): a varint size over a one byte integer shifts the message and then is refused or leaves a stale byte.
* `pb_output_big_endian_refuted` (C30): size_varint with endian::big writes protobuf fixed-width fields big-endian.
* `pb_output_byte_refuted` (C30): a std::byte member is tagged length-delimited but has no length.
* `pb_output_nested_vector_refuted` (C30): elements of a container of containers of integers are preceded by the element count instead of the byte count.
* `pb_output_array_refuted` (C30): a C array is written without a length, so other parsers take its contents for further fields.
* `pb_round_trip_numbered_refuted` (C31): a pb_field number on a repeated message is ignored by the writer and honoured by the reader.
* `pb_round_trip_byte_refuted` (C31): a std::byte of 0x80 or more is written as one byte and read as a varint.
* `pb_unknown_skipped_refuted` (C33): the payload of an unknown field is read as further fields.
* `pb_truncation_detected_refuted` (C34): a truncated protobuf message can be accepted, because sizes are clamped.
* `pb_varint_reserve_refuted` (C35): packed varints reserve the announced number of elements whatever the alloc_limit.
* `rpc_errc_response_refuted` (C36): the result of a function returning errc is never sent, so the client cannot read it.
* `rpc_opaque_pipelined_refuted` (C36): an opaque function that leaves its span alone swallows the requests that follow.
* `rpc_shared_overlap_refuted` (C37): with one buffer for both directions, reading a response while another request waits returns the bytes of that request.
* `big_endian_order_refuted` (C38): the defaulted comparison of big_endian is not numeric order on little-endian hosts.
* `sha_two_blocks_refuted` (C39): a message with more than 55 bytes after its last whole block has no digest.
* `id_wire_bytes_swapped_refuted` (C41): an integer id is reversed by an archive of the other byte order, an array id is not.
* `to_bytes_long_refuted` (C41): an object longer than 4096 bytes has no to_bytes.
* `pb_vector_list_refuted` (C45): a vector of trivially copyable messages and a list of them have incompatible encodings.
* `unsized_ambiguous_refuted` (C47): with a container without a size the bytes do not determine the values.
* `in_reencode_refuted` (C48): each excluded kind of type (varints, flags, associative containers, bitsets) has a value with two accepted representations.
* `apply_errc_success_refuted` (C49): apply on a function with parameters that returns a successful errc gives a value_or_errc that reports failure (with code 0).
* `voe_default_refuted` (C50): a default constructed value_or_errc reports success, but value(), or_throw(), moving and destroying it read the inactive union member.
* `index_by_type_refuted` (C51): index_by_type of a type that occurs twice or not at all is the index of another type (such variants are rejected elsewhere).
* `number_bound_unchecked_refuted` (C51): a field number of 2^29 or more compiles, protobuf does not allow it.
* `rvalue_array_refuted` (C52): an rvalue std::array satisfies both concepts::array and concepts::container, so the call is ambiguous (an lvalue only the latter, because Type{} is not valid for a reference).
* `two_shapes_refuted` (C52): a type that looks like a container and like a bitset has no overload.
* `pointer_serialize_refuted` (C52): a serialize function for an owning pointer type is not used: owning_pointer does not exclude has_serialize.
* `declared_zero_refuted` (C53): a class declaring members<0> compiles and is written as nothing.
* `exact_growth_refuted` (C54): with `exact_enlarger` (1108) writing k elements one by one enlarges the buffer k times; the sizes requested add up to k(k+1)/2.
* `raw_beyond_refuted` (C55): bytes(span, count) with a count larger than the span reads (on output) or overwrites (on input) memory behind the items; nothing compares the two sizes (1010-1013).
* `raw_wrap_refuted` (C55): size_in_bytes multiplies without an overflow check (1020-1023): 2^61 items of eight bytes are "written" and "read" successfully as nothing.
* `raw_position_refuted` (C55): with the position of an input set behind the end of the data the room left wraps around, and raw items are read from outside of the data.
* `duplex_retry_refuted` (C57): a read that fails with result_out_of_range has advanced the position over the items (or parts of items) already there, so retrying it after the rest arrives delivers other values than were written; the archive offers no rollback except position().
* `in_failure_unchanged_refuted` (C58): a failed read has already resized a vector and overwritten a prefix of it (2757-2767, 2841-2847), cleared a set or map, engaged an optional; only types read into a temporary (2945-2958, 2990-3000, 3063-3069) or copied as bytes keep their value.
* `in_elements_refuted` (C59): elements that take no bytes on the wire (owning pointers to empty classes, empty tuples) are created as often as the size prefix says: four bytes of input give 2^32-1 elements, each allocated on the heap.
* `in_amplification_refuted` (C59): container.resize(size) (2767) happens before any element is read and without comparing the size to the remaining input: four bytes request 2^35-8 bytes for a vector of 8 byte numbers.
* `varint_widening_refuted` (C60): a negative varint<int32_t> is written in 32 bits (five bytes) and read by varint<int64_t> as a positive number; protobuf sign-extends to 64 bits (ten bytes), see also C61.
* `pb_negative_int32_refuted` (C61): a negative int32 from another implementation (ten bytes, sign-extended) is rejected with value_too_large.
* `pb_int32_as_int64_refuted` (C61): a negative vint32_t is written in five bytes; a parser whose field is int64 (a compatible type) reads a positive number.
* `pb_bool_varint_refuted` (C61): a bool field with a varint other than 0 and 1 (true in protobuf) is undefined behaviour.
* `pb_embedded_twice_refuted` (C61): an embedded message in two records: the repeated members of the first are lost.
* `pb_packed_twice_refuted` (C61): a second packed record of fixed-width numbers replaces the first.
* `pb_map_duplicate_refuted` (C61): of two map entries with one key the first is kept, protobuf keeps the last.
* `recursion_recognised_refuted` (C62): struct A { vector<vector<A>> } and struct A { vector<B> }, struct B { unique_ptr<A> } are not self_referencing; their serialize_one functions, all always_inline, call each other in a cycle.
* `pb_wire_type_refuted` (C69): the wire type of a member that is not a container of numbers is not compared with the expected one: a length-delimited record with the number of an integer member is read as the integer, its length becoming the value (4975-4976, 5026-5040).
* `pb_packed_end_refuted` (C69): the last element of a packed block may extend beyond the announced end of the block (5141-5146).
* `pb_packed_length_refuted` (C69): the end of a packed block is computed modulo 2^64 (5140), so a block that announces 2^64-1 bytes is accepted as empty.
* `pb_packed_rest_refuted` (C69): a packed block of fixed-width numbers whose length is not a multiple of the width leaves the remainder in the input, where it is read as further fields (5133-5134).
* `custom_round_trip_any_function_refuted` (C70): a function that decides on a member it has not transferred yet is accepted, writes and reads with success, and loses the object; nothing in the library relates the two directions.
* `custom_failure_atomic_refuted` (C70): an error returned by a function undoes neither what it has written nor what it has read.
* `view_echo_refuted` (C71): a server over `data_in_out` that reads a view of const bytes and writes it back in its answer dereferences freed memory: the output archive enlarges the vector before it copies from the view into the old block.
* `view_spare_refuted` (C71): with `no_fit_size` an unsized view read shows the spare bytes of the vector too, and they change with the next write.
* `view_overlap_refuted` (C71): after `out.reset` the bytes of a view may overlap the place they are copied to: std::memcpy is undefined there.
* `seek_beyond_refuted`, `seek_read_beyond_refuted` (C72): a position behind the end of the data is not checked (`size - position` wraps): the next write or read is out of bounds. README lists `out.position() += sizeof(int)` among the controls, "with extreme care".
* `seek_varint_refuted` (C72): a varint written within its maximal size of the end of a growable buffer enlarges it and the call does not fit it again: bytes nobody wrote stay behind the end.
* `seek_bitset_refuted` (C72): a bitset written over other bytes is mixed with them.
* `work_announced_refuted` (C73): without alloc_limit four bytes make a failing call create 2^32-1 numbers (container.resize, 2767, comes before any element is read).
* `work_weightless_refuted` (C73): elements that take no bytes (owning pointers to empty classes) are created one by one as the size says: the work of a successful call is not bounded by its bytes.
* `pb_announced_refuted` (C74): without alloc_limit a tag and a length of ten bytes leave a string of up to 2^62 characters behind when the content does not follow (item.resize, 5133, comes before reading it).
* `pb_defaults_refuted` (C74): messages whose value-initialised object has elements in a member message multiply them: two bytes per copy.
* `pb_work_announced_refuted` (C75): without alloc_limit a tag and a length, at most eleven bytes, cost any number of steps below 2^62.
* `pb_no_depth_limit` (C76): nested messages are read recursively without a limit; a message of eleven (shallow: two) bytes per level exhausts any stack.
* `pb_moves_linear_refuted` (C77): writing nested messages takes time quadratic in the depth: every level is moved once more for its size (2371-2399).
* `rpc_throw_misattributed_refuted` (C79): after a function threw, the client takes the answer to the next call for its own.
* `rpc_unknown_resumed_refuted` (C79): a server that goes on after an unknown id reads the arguments as a request and may run a function nobody called.
* `custom_throw_trim_refuted` (C81): an exception thrown by a serialize function skips the fitting of the buffer at the end of out::operator(); the surplus of zeros stays in data() also after a later successful call, because that call only fits when the position reaches the size at its start.
* `mixed_big_endian_refuted` (C82): on a host of the other byte order than the archive's the fixed-width length of a message is written in the host's order (the patch in serialize_one(by_protocol) uses an archive without options) but read in the archive's, so a class with a message before another member is not read back.
* `mixed_no_size_refuted` (C82): with no_size a message takes everything that follows it.
* `mixed_truncation_detected_refuted` (C82): ordinary data cut short is refused, but not if it ends in a message that is cut between two records.
* `moving_keeps_everything_refuted` (C83): when a serialize function leaves the position before the end of what it has written, a growable buffer is fitted to the position and the bytes after it are gone, although the call succeeds.
* `moving_past_end_refuted`, `moving_unchecked_length_refuted` (C83): the archive does not check positions it is given; a function that moves past the end, or a reader that skips by a length from the data without comparing it with remaining_data().size(), makes the next access undefined.
* `moving_frame_short_length_refuted` (C83): a length filled in afterwards that does not fit its type wraps without an error, and what follows the frame is read from inside of it.
* `surrogate_terminates_refuted` (C84): a class whose serialize function goes through its own class compiles and recurses without end, on writing and on reading.
* `surrogate_lossy_refuted` (C84): nothing checks that a conversion can be undone; a number sent in too few bytes is written and read without an error as another one.
* `out_calls_linear_refuted` (C85): with the default options a sequence of calls on one archive is quadratic: each call that reaches the end of the buffer enlarges it by half, initialises the new bytes and cuts it back to the position. no_fit_size avoids it (`out_calls_linear`).
* `out_work_in_bytes_refuted` (C85): an array of objects that take no bytes is still visited element by element.
* `co_void_error_refuted` (C86): zpp_bits.h:4182-4190 awaits the coroutine of a function with parameters only if it has a value. The error of a zpp::throwing<void> coroutine with parameters is lost: serve() reports success. If coroutines start suspended it does not even run (`co_void_runs_refuted`).
* `co_errc_refuted` (C86): for a function with parameters that returns errc, zpp_bits.h:4178-4181 takes the presence of an errc in the value_or_errc for a failure and yields its code even if that is success. The server without coroutines tests the code.
* `co_serve_late_refuted` (C86): serve() passes its local id by reference to a coroutine (4207, 4294-4299); unless that runs at once, the reference dangles.
* `narrow_truncates_refuted` (C87): with a size type wider than std::size_t and no alloc_limit the size read is narrowed by container.resize(size) (zpp_bits.h:2766): a message stating 2^32+1 elements is read as one element on a 32-bit platform.
* `narrow_size_native_refuted` (C87): with size_native, native_vector, native_string and the like, data written on a 64-bit platform is misread on a 32-bit one without an error.
* `narrow_unchecked_refuted` (C87): with no_enlarge_overflow on a 32-bit platform, a vector of 1431655765 bytes is shrunk to one byte by the next append, which then writes outside (zpp_bits.h:1980-1999).
* `narrow_enlarger_refuted` (C87): the overflow check multiplies before dividing, so enlargers with a larger divisor refuse growth that is possible, on 32-bit platforms from some hundred megabytes on.
* `signed_round_trip_refuted` (C88): with a signed size type the writer accepts counts (up to the unsigned range) that the reader then sign-extends to a huge size and refuses; with `char` as size type this depends on the platform (zpp_bits.h:2213, 2237, 2751-2767).
* `pb_width_wraps_refuted` (C89): on a 32-bit platform a packed field of a list or set that states 2^32-6 bytes (five bytes of length) is accepted as empty and its contents are taken for fields, because length + archive.position() wraps (zpp_bits.h:5140).
* `pieces_span_refuted` (C90): reading more elements than a span has gives the same error as data that end too early; a program that waits for more data on this error waits for ever.
* `pb_pieces_retry_refuted` (C91): a program that waits for more data on result_out_of_range takes a protobuf message cut between two records for the whole of it.
* `rpc_pieces_response_refuted`, `rpc_pieces_errc_refuted` (C92): serve() answers result_out_of_range also after the function was called (no room for the response, or the function returned it); a server that waits for more data on this answer calls the function again.
* `custom_pieces_same_object_refuted`, `custom_pieces_own_code_refuted` (C93): a serialize function that goes by what the object held sees what failed attempts left in it; one that answers result_out_of_range for a bad value cannot be told from missing data.
* `exact_enlarger_fits_refuted` (C94): with exact_enlarger two one-byte varints leave a vector of 20 bytes, 18 of them behind the position; room for the longest varint is made and, with this enlarger only, not cut off.
* `pb_again_position_refuted` (C95): after an exception the position of a message with a size is behind the size; calling again takes the content for a size, and can report success with another message.
* `out_again_others_refuted` (C44): a failed `out(bitset, n)` has set its bits; after `position(old)` another bitset is written as the union of both, successfully.
* `in_again_position_refuted` (C96): after std::bad_alloc the position is in the middle of an item; a vector {0, 1} whose buffer was refused once is read as an empty vector, successfully, by a program that just calls again.
* `out_again_position_refuted` (C97): after std::bad_alloc the position is behind the items already written; a program that just calls again writes them twice, successfully.
* `mixed_again_position_refuted` (C98): the same as C97 with messages.

## 4. Trusted base

* The kernel of Coq 8.16.1 (including its `vm_compute` conversion) and the standard library.
* No axioms.  `Print Assumptions` answers "Closed under the global context" for each of the 534 theorems
  named in MANIFEST.json.  (Loading `ZifyBool` loads `Coq.ssr.ssrunder`, whose sealed module counts as seven
  library axioms; no theorem depends on them.)
* That the definitions in `Model/` describe what the C++ does.  Each cites the lines it models and states
  its simplifications; section 5 collects them.
* That the definitions in `Spec/` and the predicates in the theorem statements say what the English
  statement of the property says.

## 5. What is modelled

| code (lines) | model |
|---|---|
| concepts, byte_serializable, sizes (682-939, 1270-1390) | `Model/Types.v` (`bs`, `eibs`, `as_bytes`, `csizeof`) |
| errc, state, memory, growth (111-164, 1938-1990) | `Model/Machine.v` |
| varint (1586-1857) | `Model/Varint.v`, including the three decoders |
| options and positioning (1060-1172, 653-730, 1889-1909, 2021-2040) | `Model/Options.v` |
| basic_out, out (1860-2456) | `Model/Out.v` |
| in (2485-3093) | `Model/In.v` |
| in, destructor_guard (394-406, 2485-3093): ownership of heap blocks, refused allocations | `Model/Heap.v` |
| constant-evaluation paths | `Model/Loops.v` |
| whole calls in constant evaluation (branches on std::is_constant_evaluated) | `Model/ConstCalls.v` |
| protocol size prefix (2341-2415, 3095-3122) | `Model/Protocol.v` |
| to_bytes, from_bytes, join, slice, id (3214-3304) | `Model/ToBytes.v` |
| apply, bind, client, server (3624-4343) | `Model/Rpc.v` |
| bind, server with functions that throw (3744-3834, 4026-4300) | `Model/RpcThrow.v` |
| servers with coroutines, response of a coroutine (3985-4019, 4141-4300) | `Model/RpcCo.v` |
| sizes on platforms with another width of std::size_t (1966-2002, 2050-2058, 2751-2767) | `Model/Narrow.v` |
| sizes of signed types (2751-2767, 2858-2867) | `Model/SignedSize.v` |
| lengths in protobuf messages with another width of std::size_t (1850, 4929-5172) | `Model/PbNarrow.v` |
| (user program) reading data that arrive in pieces (2520-2534, 2563-2566) | `Model/Pieces.v` |
| (user program) reading protobuf messages that arrive in pieces (3095-3122) | `Model/PbPieces.v` |
| (user program) serving requests that arrive in pieces (4292-4300) | `Model/RpcPieces.v` |
| (user program) reading objects with a serialize function while they arrive (2606-2611) | `Model/CustomPieces.v` |
| (user program) reading a protobuf message again after std::bad_alloc (4929-4945) | `Model/PbAgain.v` |
| (user program) reading objects again after std::bad_alloc (2532-2535, 2547-2550) | `Model/InAgain.v` |
| (user program) writing objects again after std::bad_alloc or an error (1940-1943, 2443-2456) | `Model/OutAgain.v` |
| (user program) the same with protobuf messages (1940-1943, 2341-2415, 2443-2456) | `Model/MixedAgain.v` |
| pb (4345-5173) | `Model/Pb.v`, `Model/PbNative.v`, `Model/Mixed.v` |
| views over the vector of in_out (1966-2002, 2086-2142, 2805-2831, 3156-3183) | `Model/Alias.v` |
| type::serialize of user classes (2046-2051, 2606-2611) | `Model/Custom.v`, `Model/Surrogate.v` |
| big_endian (5179-5316), sha1, sha256 (5318-5534) | `Model/BigEndian.v`, `Model/Sha.v` |
| literals (5536-5612) | `Model/Literals.v`, `Model/Sha.v` |
| value_or_errc, apply (3457-3742) | `Model/Apply.v` |
| traits: variant_impl, variant_checker, tuple::visit, unique (434-603, 751-759); pb static assertions | `Model/Traits.v` |
| concepts as overload constraints, number_of_members, visit_members (166-343, 762-937, 1173-1268) | `Model/Dispatch.v` |
| bytes (1000-1057), known_dynamic_id_variant (3330-3360) | `Model/Raw.v` |
| in_out, data_in_out (3156-3183) | `Model/Duplex.v` |
| in::serialize_one (2485-3093), the work it does | `Model/Cost.v` |
| pb reading (4929-5172), the work it does | `Model/PbCost.v` |
| pb writing (2341-2415, 4692-4927), the bytes it moves | `Model/PbMoves.v` |
| pb reading (4929-5172): ownership of heap blocks, refused allocations | `Model/PbHeap.v` |
| position, reset, processed_data, remaining_data (1932-1957, 2545-2577) | `Model/Seek.v`, inside of serialize functions `Model/CustomSeek.v` |
| self_referencing (1391-1445), type_references (882-912) | `Model/SelfRef.v` |

Simplifications:

* Types are given by their serialization-relevant structure; overload selection by concepts is encoded in
  the constructor of `ty`.  A class is the list of its members in order; a user-written `serialize` is the
  same with `s_expl = true`, except in `Model/Custom.v`, where it is an arbitrary tree (C70).
* Layout: a byte-serializable class has no padding (that is what the code checks by comparing sizes); sizes
  of other types are an arbitrary function.
* The comparison of an associative container is an arbitrary function; the theorems state which laws they
  need.  Hash containers iterate in an arbitrary order: the value is the list in that order.
* In `des` single node allocations (`push_back`, `make_unique`, map nodes) succeed; `resize` and `reserve`
  of sequences consult the allocator.  `Model/Heap.v` lets every allocation fail and tracks who owns the
  blocks; spare capacity, the short string buffer and the buckets of hash containers are left out there.
  `Model/PbHeap.v` does the same for protobuf, with spare capacity; a map's `emplace` allocates before it
  looks for the key, as in libstdc++.  In `Options.reserve` the capacity is the current size.
* Reading `TView (VwFixed n)` describes span-like types of a user that are default constructible, have a
  constexpr size and can be assigned from a pointer and a size (2819-2829).  `std::span<const std::byte, n>`
  is not such a type: it has no default constructor, and reading it does not compile.  Writing it does, and
  is what `VwFixed` describes on output.
* Objects and buffer do not alias, except const views: they refer to positions of the input, and in
  `Model/Alias.v` (C71) to a vector that is written to as well.
* Functions bound to RPC are functions of a context and their arguments that terminate; those that throw are in
  `Model/RpcThrow.v` only.
* Template arguments of `sha1`/`sha256` other than the default `Digest` are not modelled.
* `big_endian` operators on types narrower than `int` do not compile; the model gives them the meaning they
  have at other widths.

Not modelled:

* How the compiler answers the elementary questions behind the concepts (which expressions are valid for
  a type, how many initialisers it accepts): arbitrary in `Model/Dispatch.v`, built into `ty` elsewhere.
* `zpp_throwing.h` itself (C86 assumes what Model/RpcCo.v says of it); coroutines other than bound functions; exceptions thrown by user code other than serialize functions (C81) and remote functions (C79); threads (the library has none).
* Protobuf members that are C arrays of anything but fundamentals, unpacked `bool` containers and containers
  of `pb_field`.
* Running time, except where a property speaks of the amount of memory requested (C11, C54) or of steps (C73, C75, C77, C85).

### Checked against the repository's tests

`Thm/Vectors.v` runs the model on the inputs of the repository's own tests (`/repo/test/src`) and compares
with the bytes, values and errors written down there: containers and arrays, size types, options, endianness,
classes and padding, views, optionals, pointers, variants and their ids, varints, hashes, protobuf messages,
`apply`, and remote calls.  These are examples, not theorems; they tie the model to the code in a way that does
not depend on our reading of the header.  All agree.  One expectation of the tests is itself at odds with the
code: `test_span.cpp` (`string_input_out_of_range`) asks for `value_too_large` when built without exceptions,
but the header returns `result_out_of_range` (zpp_bits.h:2779-2781), and so does the model.
Not run: the coroutine tests, member functions (the model does not distinguish them from functions), and the
arrays of 1000 elements.

## 6. Seeded bugs

`seeded/LOG.jsonl` records 956 wrong programs.  Each was made by editing one definition of the model in a
scratch copy the way a realistic bug would, rebuilding everything (`make -k`) and collecting the claimed
theorems that no longer have a proof (directly or because a lemma they rest on fails).  When a theorem
proved although the claim was false, or when only an example noticed, the theorem was tightened and the
line says how.  Lines with the claim "survey of single edits" come from a survey: one operator, constant or
flag changed at a time, the build stopped at the first failure.  Edits that no proof noticed were examined
one by one; either a theorem was tightened, or the line says why nothing differs.
