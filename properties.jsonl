{"id": "C01", "title": "Round trip of the native format", "statement": "If `out(v)` succeeds on any archive and an `in` archive with the same byte order and size options is positioned at the first written byte, then `in(w)` succeeds, w equals v, and `in.position()` advances by exactly the number of bytes `out.position()` advanced - whatever precedes or follows the bytes, and whatever w held before. Holds for scalars, varints, structs, arrays, tuples, sized and default-sized containers, ordered/hash sets and maps, optionals, variants, owning pointers, optional_ptr, bitsets and const byte views, nested without bound, provided container sizes fit the size type, values are serializable (no null pointer / valueless variant) and allocations requested by the reader are allowed.", "quantifier": "for every type in the modelled universe, every value of it, every option set, every surrounding buffer contents and every prior value of the target", "why_tests_cant": "The type universe is infinite (arbitrary nesting), values and surrounding bytes are unbounded; tests exercise a handful of types with one value each.", "anchors": ["zpp_bits.h: basic_out::serialize_one", "zpp_bits.h: in::serialize_one"]}
{"id": "C02", "title": "Output bytes are the documented wire format", "statement": "On success `out` writes exactly the canonical encoding of the items: native/requested-order scalars, size prefix followed by elements, flag byte for optionals, id byte(s) for variants, LEB128 varints. The bytes do not depend on whether the buffer is a growable vector or a fixed span, on the growth options, on the reading position or on previous buffer contents (for types without bitsets).", "quantifier": "for every type, value, option set and buffer state with position <= size", "why_tests_cant": "Requires comparing against an independent specification for all nestings of types and all buffer states.", "anchors": ["zpp_bits.h: basic_out::serialize_one", "zpp_bits.h: basic_out::serialize_many", "zpp_bits.h: out::operator()"]}
{"id": "C03", "title": "Writing never disturbs bytes outside the written window", "statement": "Whatever the outcome of `out(...)` - success, error or allocation failure - the bytes before the starting position are unchanged, and on success the bytes after the final position that existed before are unchanged (before any fit-to-size trimming). Nothing is ever written outside the buffer.", "quantifier": "for every type, value, option set, buffer and position <= size, and for every outcome", "why_tests_cant": "Frame conditions quantify over all buffer contents and all failure points in the middle of a nested value.", "anchors": ["zpp_bits.h: basic_out::serialize_one", "zpp_bits.h: basic_out::enlarge_for"]}
{"id": "C04", "title": "Fixed buffers: success iff it fits", "statement": "On a non-growable buffer `out(v)` of a serializable v succeeds if and only if the encoding fits in the remaining space; otherwise it returns result_out_of_range, never writes out of bounds, and the position stays within the buffer.", "quantifier": "for every type, serializable value, buffer size and position", "why_tests_cant": "The boundary condition must hold for every value/size combination including varint near the end of the buffer, where the code uses a two-stage check.", "anchors": ["zpp_bits.h: basic_out::serialize_one", "zpp_bits.h: serialize(Archive&, varint) (out)"]}
{"id": "C05", "title": "Growable buffers only fail for lack of memory", "statement": "On a growable buffer `out(v)` of a serializable v can only fail with no_buffer_space (size overflow or alloc_limit) or by an allocator exception; and it does succeed whenever the allocator can provide (Mul/Div)*2*(final position + 10) bytes, that product does not overflow and is within alloc_limit.", "quantifier": "for every type, serializable value, buffer, position <= size, and enlarger with Mul >= Div", "why_tests_cant": "A liveness bound over an unbounded sequence of geometric reallocations.", "anchors": ["zpp_bits.h: basic_out::enlarge_for", "zpp_bits.h: out::operator()"]}
{"id": "C06", "title": "Growth arithmetic is overflow safe", "statement": "enlarge_for(n) either leaves at least n bytes between position and end of buffer, keeps existing contents and zero-fills the rest, or reports no_buffer_space leaving the buffer untouched; for the default options this holds for all 64-bit sizes including those where size+n or the multiplication wraps. With a shrinking enlarger (Mul < Div) it can succeed without providing the space, and with no_enlarge_overflow the guarantee is lost when the arithmetic wraps.", "quantifier": "for all buffer sizes, positions, requested sizes (64-bit) and growth factors", "why_tests_cant": "Wrap-around cases need buffers near 2^64 bytes, which no test can allocate.", "anchors": ["zpp_bits.h: basic_out::enlarge_for", "zpp_bits.h: options::enlarger", "zpp_bits.h: options::no_enlarge_overflow"]}
{"id": "C07", "title": "Fit-to-size after growth", "statement": "After `out(...)` on a growable archive with default options, if the archive was positioned at the end of the data (fresh, append) then data().size() == position() afterwards, also on failure. If the call never needed to grow the buffer then trailing data keeps its size. Trimming never drops bytes before position().", "quantifier": "for every sequence of items, buffer and position", "why_tests_cant": "The documented claim 'if the buffer was grown it is resized to the exact position' depends on every intermediate growth step; it is false in a corner case (varint written inside an existing buffer).", "anchors": ["zpp_bits.h: out::operator()", "zpp_bits.h: basic_out::enlarge_for", "zpp_bits.h: serialize(Archive&, varint) (out)"]}
{"id": "C08", "title": "alloc_limit bounds the output buffer", "statement": "With alloc_limit<L> the growable buffer never becomes larger than max(original size, L), whatever is written, and a request beyond the limit is reported as no_buffer_space.", "quantifier": "for every type, value, buffer, position and L", "why_tests_cant": "Must hold along every growth history.", "anchors": ["zpp_bits.h: basic_out::enlarge_for", "zpp_bits.h: traits::alloc_limit"]}
{"id": "C09", "title": "Deserialization is memory safe on arbitrary bytes", "statement": "`in(w)` on any byte sequence, valid or hostile, never reads outside the data and never has undefined behaviour for types without bool members; it always ends with success, an error code, an allocation exception or (recursive types only) stack exhaustion.", "quantifier": "for every type, every byte sequence, every position <= size, every option set and every prior target value", "why_tests_cant": "Fuzzing covers a vanishing fraction of inputs; the claim is universal over inputs, types and options.", "anchors": ["zpp_bits.h: in::serialize_one", "zpp_bits.h: decode_varint", "zpp_bits.h: serialize(Archive&, varint&) (in)"]}
{"id": "C10", "title": "Reading position stays in range and the target stays valid", "statement": "After `in(...)`, successful or not, the position is never smaller than before, never larger than the data size, the input data is unchanged, and the target object is a valid value of its type (array extents, bitset width, variant alternative, sorted/unique associative containers).", "quantifier": "for every type, byte sequence, position, option set, prior value and outcome", "why_tests_cant": "Needs all failure points in nested structures.", "anchors": ["zpp_bits.h: in::serialize_one"]}
{"id": "C11", "title": "alloc_limit bounds input allocations of sequence containers", "statement": "With alloc_limit<L>, every container.resize performed while reading a length-prefixed sequence requests at most L bytes (count * sizeof(element)), at every nesting level; a larger announced length gives message_size without allocating.", "quantifier": "for every type, byte sequence, position and L", "why_tests_cant": "Attack inputs with nested lengths; per-level bound must hold for all inputs. Associative containers are not limited by the library, which the model makes explicit.", "anchors": ["zpp_bits.h: in::serialize_one(container)", "zpp_bits.h: traits::alloc_limit"]}
{"id": "C12", "title": "Decoding depends only on the bytes it consumes", "statement": "If `in(w)` succeeds consuming n bytes, then on any other data that agrees on those n bytes (in particular after appending arbitrary bytes) it succeeds with the same value and the same n. Only 'rest of input' unsized views are exempt.", "quantifier": "for every type without unsized views / protocol messages, all byte sequences and all extensions", "why_tests_cant": "The varint decoder picks a different algorithm depending on how many bytes remain; equality must hold for all contexts.", "anchors": ["zpp_bits.h: in::serialize_one", "zpp_bits.h: decode_varint"]}
{"id": "C13", "title": "Truncated input is always rejected", "statement": "No strict prefix of a successfully decoded byte string decodes successfully: if `in(w)` succeeds consuming n bytes, then with any k < n of them available it does not succeed. Reading past the end is reported as result_out_of_range.", "quantifier": "for every type (without unsized views / protocol messages), byte sequence and truncation point", "why_tests_cant": "All truncation points of all encodings.", "anchors": ["zpp_bits.h: in::serialize_one"]}
{"id": "C14", "title": "Result is independent of the target's previous contents", "statement": "The decoded value does not depend on what the target held before (even though optionals, variants and containers reuse existing storage), except for deliberately unsized containers and mutable spans whose extent is taken from the target.", "quantifier": "for every type, byte sequence and pair of prior values", "why_tests_cant": "Quantifies over all prior states, including engaged optionals and variants with another alternative active.", "anchors": ["zpp_bits.h: in::serialize_one(optional)", "zpp_bits.h: in::serialize_one(variant)", "zpp_bits.h: in::serialize_one(container)"]}
{"id": "C15", "title": "varint output is canonical LEB128", "statement": "A varint is written as the minimal-length base-128 little-endian encoding of its (two's complement / zig-zag mapped) value, exactly varint_size(value) bytes, at most varint_max_size; and reads back to the same value for every width 8..64, signed or unsigned, zig-zag for signed types.", "quantifier": "for every width, encoding and value, at every buffer position", "why_tests_cant": "2^64 values times two decoding algorithms.", "anchors": ["zpp_bits.h: varint_size", "zpp_bits.h: varint_max_size", "zpp_bits.h: serialize(Archive&, varint) (out)", "zpp_bits.h: serialize(Archive&, varint&) (in)"]}
{"id": "C16", "title": "varint decoding: all code paths agree", "statement": "The one-byte fast path, the short-buffer loop, the unrolled long-buffer decoder and the inline variant (ZPP_BITS_INLINE_DECODE_VARINT) give the same value, position and error for every input; a missing terminator gives result_out_of_range when fewer than the maximum number of bytes remain and value_too_large otherwise; at most varint_max_size bytes are consumed; the target is unmodified on error.", "quantifier": "for every byte sequence, width and position", "why_tests_cant": "Path equivalence over all byte strings.", "anchors": ["zpp_bits.h: decode_varint", "zpp_bits.h: serialize(Archive&, varint&) (in)"]}
{"id": "C17", "title": "zig-zag mapping is the standard bijection for signed types", "statement": "For signed types the value put on the wire is 2n for n >= 0 and -2n-1 for n < 0, so small magnitudes get short encodings, and decoding inverts it. For unsigned value types with zig_zag encoding the code does not round-trip.", "quantifier": "for every width and value", "why_tests_cant": "Requires all values of all widths; the unsigned counterexample is outside the tested types.", "anchors": ["zpp_bits.h: varint_size", "zpp_bits.h: serialize(Archive&, varint) (out)", "zpp_bits.h: serialize(Archive&, varint&) (in)"]}
{"id": "C18", "title": "Explicit byte order makes the format host independent", "statement": "With endian::big (or little, network) the bytes written for a value are the same on little- and big-endian hosts, and data written on one kind of host is read back correctly on the other. With no byte-order option this is false for multi-byte scalars.", "quantifier": "for every type, value, and both host byte orders", "why_tests_cant": "Tests run on one host only.", "anchors": ["zpp_bits.h: options::endian", "zpp_bits.h: basic_out::endian_aware", "zpp_bits.h: in::endian_aware", "zpp_bits.h: concepts::serialize_as_bytes"]}
{"id": "C19", "title": "Bulk memory copy equals member-wise serialization", "statement": "Whenever the library serializes an object, array or contiguous container as raw memory, the bytes are identical to serializing its members/elements one after another, and reading them back by memory copy gives the same object as reading member-wise; the exception are containers and arrays of an empty class, copied as one byte per element natively but written as nothing member-wise.", "quantifier": "for every type classified as byte-serializable and every value", "why_tests_cant": "The classification is a recursive compile-time predicate over all types (padding, empty members, explicit serialization).", "anchors": ["zpp_bits.h: access::byte_serializable", "zpp_bits.h: access::endian_independent_byte_serializable", "zpp_bits.h: concepts::serialize_as_bytes", "zpp_bits.h: bytes", "zpp_bits.h: as_bytes"]}
{"id": "C20", "title": "Compile-time and run-time evaluation agree", "statement": "The constant-evaluation code paths (byte loops and bit_cast) and the run-time paths (memcpy, reverse_copy, memmove) of out, in and of protocol size insertion have the same effect.", "quantifier": "for every scalar/bytes item, byte order, buffer and position", "why_tests_cant": "Two different implementations selected by is_constant_evaluated; tests run one of them on given data.", "anchors": ["zpp_bits.h: basic_out::serialize_one", "zpp_bits.h: in::serialize_one"]}
{"id": "C21", "title": "Container size prefix", "statement": "The size prefix written is the element count reduced modulo 2^(8*width); all elements are nevertheless written. Hence reading back returns the full container iff count < 2^(8*width); otherwise the reader sees count mod 2^(8*width) elements and the remaining bytes are left unread (contrary to the README's 'less items will be serialized').", "quantifier": "for every container length and size type", "why_tests_cant": "Needs containers longer than the size type can express, for every width.", "anchors": ["zpp_bits.h: basic_out::serialize_one(container)", "zpp_bits.h: in::serialize_one(container)", "zpp_bits.h: options::size1b"]}
{"id": "C22", "title": "Associative containers", "statement": "Reading a set or map yields a container with sorted, unique keys containing the first occurrence of every key in wire order; elements are read in wire order and previous contents are discarded; a previously written container reads back equal.", "quantifier": "for every byte sequence, comparator, element type and prior contents", "why_tests_cant": "All multisets of keys, including duplicates that out never produces.", "anchors": ["zpp_bits.h: in::serialize_one(associative_container)"]}
{"id": "C23", "title": "Optionals", "statement": "An empty optional is the single byte 00, an engaged one is 01 followed by the value; optional_ptr has the identical encoding; any non-zero flag byte is accepted as engaged; reading 00 always disengages.", "quantifier": "for every payload type, value, flag byte and prior state", "why_tests_cant": "All payload types and flags; tests use int payloads.", "anchors": ["zpp_bits.h: basic_out::serialize_one(optional)", "zpp_bits.h: in::serialize_one(optional)", "zpp_bits.h: serialize(Archive&, optional_ptr)"]}
{"id": "C24", "title": "Variants", "statement": "A variant is written as the id of its active alternative followed by the alternative; ids are pairwise distinct and of one width, reading an id selects exactly the alternative with that id, an id of no alternative gives bad_message and leaves the variant unchanged; known_id writes/reads the bare alternative (undefined when another alternative is active, and when reading an alternative that is not default constructible); a valueless variant is refused with invalid_argument and nothing is written.", "quantifier": "for every list of alternatives, ids, value, input and prior state", "why_tests_cant": "All alternative lists / id assignments.", "anchors": ["zpp_bits.h: traits::variant_impl", "zpp_bits.h: basic_out::serialize_one(variant)", "zpp_bits.h: in::serialize_one(variant)", "zpp_bits.h: known_id"]}
{"id": "C25", "title": "Owning pointers", "statement": "Serializing a null owning pointer is refused with invalid_argument without writing; after a successful read the pointer is non-null and owns a freshly read object; after a failed read the pointer still holds its previous object.", "quantifier": "for every pointee type, input and prior pointer", "why_tests_cant": "All failure points inside the pointee.", "anchors": ["zpp_bits.h: basic_out::serialize_one(owning_pointer)", "zpp_bits.h: in::serialize_one(owning_pointer)"]}
{"id": "C26", "title": "Bitsets", "statement": "A bitset of N bits is written as ceil(N/8) bytes, bit i in bit i%8 of byte i/8, provided the destination bytes were zero (fresh or grown buffer); reading returns the same bits and ignores padding bits. Into a reused buffer with non-zero bytes the written bitset is wrong (old bits are OR-ed in). Written over old bytes, the bits come out as the union of what was there and what is written, and are read back as that.", "quantifier": "for every N, bit pattern and destination contents", "why_tests_cant": "All widths, patterns and dirty buffers; tests use clean buffers.", "anchors": ["zpp_bits.h: basic_out::serialize_one(bitset)", "zpp_bits.h: in::serialize_one(bitset)"]}
{"id": "C27", "title": "Views", "statement": "A const byte view read from the input refers to exactly the announced byte range inside the input data (zero copy, never outside it); an unsized const view takes exactly the rest of the input; a fixed-extent view takes exactly its extent; reading into a mutable span never writes more elements than the span had, and shrinks it to the announced size.", "quantifier": "for every input, announced size, span extent and position", "why_tests_cant": "Hostile announced sizes.", "anchors": ["zpp_bits.h: in::serialize_one(container)"]}
{"id": "C28", "title": "Sequencing", "statement": "archive(a, b, ...) is equivalent to archive(a) followed by archive(b)... stopping at the first failure, and the bytes of a tuple/struct are the concatenation of the bytes of its members; splitting one call into several (for out: up to fit-to-size) gives the same data, position and status.", "quantifier": "for every list of items and every split point", "why_tests_cant": "All lists of items and failure positions.", "anchors": ["zpp_bits.h: basic_out::serialize_many", "zpp_bits.h: in::serialize_many", "zpp_bits.h: out::operator()"]}
{"id": "C29", "title": "Size prefix of protocol messages", "statement": "A sized protocol message is written as its exact byte length in the size type followed by the message, for any message length: for varint size types the already written message is shifted without corruption to make room for a longer prefix. With a byte-swapping archive and a multi-byte fixed size type the prefix is written in native order although it is read in archive order (so it does not round-trip); a fixed size type silently drops the high bits of longer lengths, and a varint over a w-byte integer is limited to 7*w bits (longer messages are refused or get a corrupt prefix).", "quantifier": "for every protocol body, message length, size type, buffer and position", "why_tests_cant": "Message lengths at every varint boundary, with growth in between.", "anchors": ["zpp_bits.h: basic_out::serialize_one(by_protocol)"]}
{"id": "C30", "title": "Protobuf output conforms to the protobuf wire format", "statement": "Serializing a message with no_size (default or size_varint archives without byte swap) yields a byte string that an independent protobuf wire-format grammar parses as exactly the sequence of (field number, wire type, payload) of its members: empty repeated fields omitted, scalars packed, nested messages and map entries length delimited, fixed fields little endian on every host.", "quantifier": "for every message type in the modelled universe and every value", "why_tests_cant": "All message schemas and values, both host byte orders.", "anchors": ["zpp_bits.h: pb::operator() (out)", "zpp_bits.h: pb::serialize_one", "zpp_bits.h: pb::make_tag"]}
{"id": "C31", "title": "Protobuf round trip", "statement": "A message written by the library is read back equal (into any target whose non-repeated members are all present in the message), for every schema whose repeated message/string members do not carry an explicit pb_field number and which has no std::byte member; for the excluded schemas there are counterexamples (wrong field number written; std::byte value >= 0x80 unreadable).", "quantifier": "for every schema, value and prior target", "why_tests_cant": "All schemas/values; the failing schemas are not in the test-suite.", "anchors": ["zpp_bits.h: pb::serialize_one", "zpp_bits.h: pb::deserialize_fields", "zpp_bits.h: pb::deserialize_field", "zpp_bits.h: pb::field_number", "zpp_bits.h: pb::field_number_from_struct"]}
{"id": "C32", "title": "Protobuf reader memory safety and bounds", "statement": "Reading a protobuf message from arbitrary bytes never reads outside the enclosing message (nested length prefixes cannot escape it), never has undefined behaviour (bool-free schemas), terminates, and leaves the position inside the data.", "quantifier": "for every schema, byte sequence, announced size and option set", "why_tests_cant": "Universal over hostile inputs.", "anchors": ["zpp_bits.h: pb::operator() (in)", "zpp_bits.h: pb::deserialize_fields", "zpp_bits.h: pb::deserialize_field"]}
{"id": "C33", "title": "Protobuf unknown and missing fields", "statement": "Members absent from the message keep their previous value except containers, which are cleared; field number 0 is rejected with protocol_error. Unknown fields are NOT skipped by payload: the payload bytes are reinterpreted as tags, so a well-formed message with an unknown field can be rejected or misread.", "quantifier": "for every schema, message and target", "why_tests_cant": "Schema evolution over all unknown payloads.", "anchors": ["zpp_bits.h: pb::deserialize_fields", "zpp_bits.h: pb::deserialize_field"]}
{"id": "C34", "title": "Protobuf length prefixes beyond the data", "statement": "A nested or top-level size prefix larger than the available data is clamped to the available data rather than rejected; so, unlike the native format, a truncated message can be accepted.", "quantifier": "for every message and truncation", "why_tests_cant": "Counterexample search plus a universal characterisation.", "anchors": ["zpp_bits.h: pb::operator() (in)"]}
{"id": "C35", "title": "alloc_limit in protobuf reading", "statement": "Packed fixed-width repeated fields and strings request at most L bytes; packed varint fields reserve the announced length without consulting the limit.", "quantifier": "for every input and L", "why_tests_cant": "Universal bound / counterexample.", "anchors": ["zpp_bits.h: pb::deserialize_field"]}
{"id": "C36", "title": "RPC request/serve/response", "statement": "client.request<Id>(args), then server.serve(), then client.response<Id>() returns exactly the bound function applied to args, invoking exactly that function exactly once, for every table of bindings with distinct ids; an id with no binding yields not_supported and no function is invoked; if the arguments cannot be decoded no function is invoked.", "quantifier": "for every binding table, function, argument values and buffer contents", "why_tests_cant": "All tables and functions.", "anchors": ["zpp_bits.h: rpc_impl", "zpp_bits.h: apply", "zpp_bits.h: bind"]}
{"id": "C37", "title": "Multiple RPC calls through one channel", "statement": "A sequence of requests served in order yields the responses in order; each response is read from exactly the bytes its serve wrote.", "quantifier": "for every sequence of calls", "why_tests_cant": "Unbounded histories.", "anchors": ["zpp_bits.h: rpc_impl::client", "zpp_bits.h: rpc_impl::server"]}
{"id": "C38", "title": "big_endian arithmetic", "statement": "numbers::big_endian<T> addition, bitwise operators and shifts compute the same as unsigned T arithmetic modulo 2^bits on the represented numbers, on both host byte orders; but the defaulted comparison compares stored representations and is not numeric order on little-endian hosts.", "quantifier": "for every width and operand and shift amount", "why_tests_cant": "2^128 operand pairs; both hosts.", "anchors": ["zpp_bits.h: numbers::big_endian"]}
{"id": "C39", "title": "SHA-1 and SHA-256", "statement": "sha1<Object>() and sha256<Object>() equal the FIPS 180-4 digests of the serialized object whenever its length mod 64 is at most 55; for other lengths the padding size computation wraps and no digest is produced.", "quantifier": "for every message", "why_tests_cant": "All messages of all lengths.", "anchors": ["zpp_bits.h: sha1", "zpp_bits.h: sha256"]}
{"id": "C40", "title": "Hex literals", "statement": "_decode_hex of a string of even length over [0-9a-fA-F] yields exactly the bytes it denotes, case-insensitively, and is the inverse of hex encoding.", "quantifier": "for every valid hex string", "why_tests_cant": "All strings.", "anchors": ["zpp_bits.h: operator\"\"_decode_hex"]}
{"id": "C41", "title": "to_bytes / from_bytes / id", "statement": "from_bytes<to_bytes<v>()> is v, to_bytes of several objects is the concatenation, and the serialization id of an object is its encoding truncated to the requested length and read as an integer of that width, so the id bytes on the wire are exactly those bytes.", "quantifier": "for every object and truncation", "why_tests_cant": "All objects.", "anchors": ["zpp_bits.h: to_bytes", "zpp_bits.h: from_bytes", "zpp_bits.h: join", "zpp_bits.h: slice", "zpp_bits.h: serialize_id"]}
{"id": "C42", "title": "Recursive types", "statement": "Round trip and safety hold for self-referencing types of every nesting depth; but reading has no depth limit: for every stack bound there is an input of proportional length that exceeds it.", "quantifier": "for every recursive type, depth and input", "why_tests_cant": "Unbounded depth.", "anchors": ["zpp_bits.h: access::self_referencing", "zpp_bits.h: in::serialize_one(owning_pointer)"]}
{"id": "C43", "title": "Archive positioning options", "statement": "append starts writing after the existing data and preserves it; resize(n) sets the size and clamps the position; reset(p) with p <= size overwrites in place; writing with a position beyond the data size is undefined behaviour (out-of-range write) because the remaining-space subtraction wraps.", "quantifier": "for every buffer, option argument and item", "why_tests_cant": "All positions incl. wrap-around.", "anchors": ["zpp_bits.h: basic_out::option(append)", "zpp_bits.h: basic_out::option(resize)", "zpp_bits.h: basic_out::reset"]}
{"id": "C44", "title": "Failed output leaves a usable archive", "statement": "After a failed `out(...)` the position is between the old position and the buffer end, the bytes between the old and new position are the complete encodings of the items already written plus a prefix of the failing one, and retrying the same items at the old position after making room produces the correct encoding - with bitsets too, although their bits are or-ed into the bytes of the failed attempt, provided the buffer was zero from the position on before the first attempt. Other items in place of the failed ones can come out wrong if they hold bitsets.", "quantifier": "for every item list and failure point", "why_tests_cant": "All failure points.", "anchors": ["zpp_bits.h: basic_out::serialize_many"]}
{"id": "C45", "title": "Types declaring a protocol inside bulk-copied aggregates", "statement": "A trivially copyable message type declaring pb_protocol is written by the protocol when serialized on its own, but as raw memory when it is an element of a contiguous container, array or byte-serializable struct; both round-trip, but the bytes differ.", "quantifier": "for every such message type", "why_tests_cant": "Depends on the recursive classification predicate.", "anchors": ["zpp_bits.h: access::byte_serializable", "zpp_bits.h: concepts::by_protocol", "zpp_bits.h: basic_out::serialize_one(container)"]}
{"id": "C46", "title": "The reader accepts exactly the documented language", "statement": "For types that determine their own extent there is a grammar relating byte strings and values (fixed-width words in the archive byte order, base-128 digits up to a terminator, any non-zero presence byte, ids of the alternatives, counted elements, elements inserted in order into associative containers). Reading succeeds only on strings of that grammar, produces the value the grammar assigns and consumes exactly that string; and every such string is accepted unless memory, stack or the allocation limit do not suffice. Any other failure means that no such string starts at the position.", "quantifier": "for every type, archive configuration, previous target contents, input and position", "why_tests_cant": "All inputs, including malformed ones and representations no writer produces.", "anchors": ["zpp_bits.h: in::serialize_one"]}
{"id": "C47", "title": "Encodings are uniquely decodable", "statement": "No representation of a value is a proper prefix of another representation of the same type, and different values have different encodings; so a concatenation of encoded values can be split in one way only. This fails for containers without a size.", "quantifier": "for every type of its own extent, all pairs of values and all continuations", "why_tests_cant": "All pairs of values.", "anchors": ["zpp_bits.h: basic_out::serialize_one", "zpp_bits.h: in::serialize_one"]}
{"id": "C48", "title": "Reading and writing again gives the same bytes", "statement": "For types without varints, presence flags, associative containers and bitsets with unused bits, the bytes consumed by a successful read are the encoding of the value read, so two different inputs are never accepted as the same value. For each excluded kind of type there are two inputs accepted as the same value.", "quantifier": "for every such type, input and position", "why_tests_cant": "All accepted inputs.", "anchors": ["zpp_bits.h: in::serialize_one"]}
{"id": "C49", "title": "apply calls the function with the arguments read", "statement": "apply(function, archive) with the encoding of the arguments in the input calls the function exactly once with exactly those arguments, advances the input by exactly their encoding and returns what the function returned; if the arguments cannot be read the function is not called, nothing but the input position changes and the error is returned; without parameters nothing is read. The RPC server is apply followed by sending the result. A function with parameters that returns errc is reported as failed even when it returns success.", "quantifier": "for every function, argument list, input, position and context", "why_tests_cant": "All functions and all inputs, including those on which reading fails midway.", "anchors": ["zpp_bits.h: apply", "zpp_bits.h: bind::call", "zpp_bits.h: server::call_binding"]}
{"id": "C50", "title": "value_or_errc keeps what it was given", "statement": "An object made from a value or from an error, moved any number of times, reports success exactly if it was made from a value; or_throw returns that value or throws that error; no move, access after the matching test, or destruction reads the inactive union member. A default constructed object reports success without having a value.", "quantifier": "for every value, error and number of moves", "why_tests_cant": "All histories of an object.", "anchors": ["zpp_bits.h: value_or_errc"]}
{"id": "C51", "title": "Compile-time checks on ids and field numbers", "statement": "A variant type compiles exactly if every alternative has an id (declared, or its position as a std::byte, so at most 256 without declarations), all ids have one type and no two are equal; then the id of an index and the index of an id are inverse to each other, other ids have no index, and the dispatcher selects the alternative with that index. A message compiles only if each member has exactly one number (given, mapped or its position counted from one), none is zero and no two are equal. The bound 2^29 on field numbers is not checked.", "quantifier": "for every list of alternatives, ids, members and mapping options", "why_tests_cant": "The checks run in the compiler on each instantiation; tests only show the instantiations that compile.", "anchors": ["zpp_bits.h: traits::variant_impl", "zpp_bits.h: traits::variant_checker", "zpp_bits.h: traits::unique", "zpp_bits.h: pb::unique_field_numbers"]}
{"id": "C52", "title": "Overload selection is total and unambiguous", "statement": "For every type passed as an lvalue some serialize_one overload is viable. A type with its own serialize function takes that function whatever else it offers (owning pointers and C arrays excepted); one declaring a protocol takes the protocol; a type with exactly one of the shapes array, variant, optional, sequence, associative container, tuple, owning pointer, bitset takes the overload meant for that shape, associative containers the more specialised one on input; any other type is taken apart into members. A selected overload always fits the type. rvalue std::array and types with two shapes do not compile.", "quantifier": "for every combination of answers of the compiler to the questions the concepts ask", "why_tests_cant": "Tests only contain the types somebody thought of.", "anchors": ["zpp_bits.h: concepts", "zpp_bits.h: basic_out::serialize_one", "zpp_bits.h: in::serialize_one", "zpp_bits.h: access::has_serialize"]}
{"id": "C53", "title": "No member is silently skipped", "statement": "If serializing a class without a serialize function compiles, the visitor receives exactly its members in order, however the count was obtained (declared members<N> or protocol<P, N>, number of accepted initialisers, structured bindings, packs); classes of up to 50 members whose initialisers correspond to members are detected; larger ones do not compile. Declaring members<0> is the exception: then nothing is written.", "quantifier": "for every class, number of members and mode of detection", "why_tests_cant": "Depends on the compile-time counting chain; tests have small classes.", "anchors": ["zpp_bits.h: access::number_of_members", "zpp_bits.h: access::visit_members"]}
{"id": "C54", "title": "The output buffer grows geometrically", "statement": "Writing any items through out asks for buffers of strictly growing sizes, each more than Multiplier/Divisor times the size before, never larger than Multiplier/Divisor times twice the final position plus ten bytes. With the default 3/2 the number of enlargements is logarithmic in the number of bytes, and everything ever requested adds up to at most nine times the final position plus a constant. If any request is refused the call ends with the exception of the allocator. exact_enlarger loses this: writing k elements one by one requests k buffers, quadratic in total.", "quantifier": "for every configuration with Divisor <= Multiplier, every value and every buffer", "why_tests_cant": "A statement about the asymptotic cost over all sizes.", "anchors": ["zpp_bits.h: basic_out::enlarge_for", "zpp_bits.h: out::operator()", "zpp_bits.h: enlarger"]}
{"id": "C55", "title": "Explicitly counted raw bytes", "statement": "bytes(items, count) whose count lies inside the items writes exactly the first count items as they are in memory and nothing else, succeeds on a fixed buffer exactly if they fit and leaves the archive unchanged on failure; reading replaces exactly those bytes of the target or, if the input is too short, nothing; what was written is read back. A count beyond the items is not checked: memory outside of them is read or overwritten. A count whose size in bytes exceeds 2^64 succeeds without transferring it.", "quantifier": "for every item size, memory, count, buffer, input and position", "why_tests_cant": "Counts near the limits and overlapping memory are not tried by tests.", "anchors": ["zpp_bits.h: bytes", "zpp_bits.h: bytes::size_in_bytes", "zpp_bits.h: basic_out::serialize_one", "zpp_bits.h: in::serialize_one"]}
{"id": "C56", "title": "Variant ids supplied at run time", "statement": "Reading an integer and passing it as the id, in(id); in(known_id(id, variant)), has the same outcome, object and position as reading the variant with its id from the archive. The bytes written with a compile-time known_id are read back with the run-time id of that alternative, also if it is not default constructible. An id of no alternative gives bad_message and leaves the variant and the position alone.", "quantifier": "for every variant type, id, value, input and position", "why_tests_cant": "All ids.", "anchors": ["zpp_bits.h: known_dynamic_id_variant", "zpp_bits.h: in::serialize_one"]}
{"id": "C57", "title": "An input and an output archive over one vector are a queue of values", "statement": "With in_out or data_in_out, any interleaving of writes and reads, however items are grouped into calls on either side, delivers the values written, in order, as a first-in first-out queue does; every write succeeds if memory suffices, and if memory runs out everything delivered before is still right. A read issued before all of its bytes have been written fails with result_out_of_range and, if none of them have, changes nothing. A read failing in the middle has consumed what was there: repeating it later does not deliver the values written.", "quantifier": "for every program of writes and reads, all values, groupings and archives over a growable buffer", "why_tests_cant": "All interleavings and groupings.", "anchors": ["zpp_bits.h: in_out", "zpp_bits.h: data_in_out", "zpp_bits.h: basic_out::operator()", "zpp_bits.h: in::operator()"]}
{"id": "C58", "title": "What a failed read leaves in its targets", "statement": "After a failed call the targets before the failing one hold the values read, the targets after it are untouched, and the failing one is changed only where its type permits: numbers, bit sets, views, owning pointers, optionals and variants of types that are not default constructible and anything copied as bytes are unchanged; classes, tuples, arrays and containers hold a prefix that was read, one partially read part and an untouched rest; a vector has been resized; a set or map has been cleared. There is no guarantee that a failed read leaves a target unchanged: elements of a vector are lost.", "quantifier": "for every list of types, targets, input, position and failure", "why_tests_cant": "All failure points in nested types.", "anchors": ["zpp_bits.h: in::operator()", "zpp_bits.h: in::serialize_one"]}
{"id": "C59", "title": "What a read can make the program hold is bounded by what it consumes", "statement": "If every container element takes at least one byte, the number of container elements (at all nesting levels together) in the values of a successful call, plus the bytes every value of those types takes at least, is at most the number of bytes consumed. Without that condition four bytes can produce 2^32-1 elements; and before the elements are read memory is requested for all those announced, so without alloc_limit four bytes request gigabytes.", "quantifier": "for every list of types, input, position and targets", "why_tests_cant": "All inputs.", "anchors": ["zpp_bits.h: in::serialize_one", "zpp_bits.h: in::operator()"]}
{"id": "C60", "title": "Types with the same wire format may stand for each other", "statement": "A program may read what another wrote with other types: classes, tuples, pairs, arrays in any nesting with the same parts; vectors, lists, spans, sets, maps and strings with the same element format and size type (an associative target inserts the elements); optionals and optional pointers; owning pointers and plain objects; bytes, chars and bools; zig-zag varints of any width holding the number; variants with other, additional or rearranged alternatives as long as the id has a corresponding alternative. The values read are the corresponding ones whatever the options, buffers and previous contents. Widening a signed varint without zig-zag is not such a case.", "quantifier": "for every two lists of types and values related by the correspondence, writers, readers and inputs", "why_tests_cant": "All pairs of types.", "anchors": ["zpp_bits.h: basic_out::serialize_one", "zpp_bits.h: in::serialize_one"]}
{"id": "C61", "title": "Protobuf messages mean the same to the library and to a conforming parser", "statement": "Read by the rules of the protobuf documentation (last one wins, 32-bit integers take the low bits, embedded messages merge, packed and unpacked elements accumulate, the later map entry counts, unknown fields are skipped), the bytes the library writes are the object that was written, and no other. Conversely the library makes of a message from elsewhere what those rules say, whatever the order of the records, packed or not, and whatever the target held, provided: no unknown fields, varints within the width of the member, bools 0 or 1, an embedded message not repeated after giving it repeated elements, one packed record per container of fixed-width numbers, no key twice in a map. Each of these provisos is necessary.", "quantifier": "for every message class, object, sequence of records and previous contents", "why_tests_cant": "Needs another protobuf implementation and all messages it could send.", "anchors": ["zpp_bits.h: pb::operator()", "zpp_bits.h: pb::deserialize_fields", "zpp_bits.h: pb::deserialize_field", "zpp_bits.h: pb::serialize_field"]}
{"id": "C62", "title": "Self-referencing classes are recognised", "statement": "The compile-time function self_referencing ends for every class and answers yes exactly when a part of the class, at any depth of member classes, tuples and arrays, has a member that is a container, set, map, owning pointer or optional directly of that class; the members of such a class are then visited by a function that need not be inlined. Recursion through two nested containers or through another class is not recognised, and leaves a cycle of functions each of which must be inlined.", "quantifier": "for every system of classes without infinite objects, and every type", "why_tests_cant": "A statement about the instantiation of templates for all class definitions.", "anchors": ["zpp_bits.h: access::self_referencing", "zpp_bits.h: access::self_referencing_visitor", "zpp_bits.h: concepts::type_references", "zpp_bits.h: basic_out::serialize_one"]}
{"id": "C63", "title": "A damaged protobuf message leaves the records before the damage", "statement": "When a protobuf message is damaged at some record (tag or number cut off or too long, field number 0, fixed-width number or string reaching past the end, damage inside an embedded message, list element or map entry, or inside a packed run), the read fails with the error of that place; the position stands past the length prefix, all records before the damage and exactly the consumed part of the damaged one; the members hold what the earlier records gave them, a number being read is unchanged, a list or map element being read is not added, an embedded message keeps its own earlier records, and every other member is untouched.", "quantifier": "for every schema, target object, sequence of valid records followed by damage at any nesting depth, and archive", "why_tests_cant": "Every place of damage at every depth of every schema.", "anchors": ["zpp_bits.h: pb::deserialize_fields", "zpp_bits.h: pb::deserialize_field", "zpp_bits.h: pb::operator() (in)"]}
{"id": "C64", "title": "The first option of a kind decides", "statement": "Of several size, allocation limit or enlarger options the first one given decides, and without one the defaults (4 byte sizes, no limit, 3/2) hold; byte order, no_fit_size and no_enlarge_overflow are in force when given anywhere, also together with their opposite; options of different kinds may be interleaved in any way without effect on the archive; append, reserve and resize act in the order given.", "quantifier": "for every list of options, both host byte orders, every buffer", "why_tests_cant": "There are infinitely many option lists, and the choice is made by overload resolution and fold expressions at compile time.", "anchors": ["zpp_bits.h: traits::get_default_size_type", "zpp_bits.h: traits::get_alloc_limit", "zpp_bits.h: traits::get_enlarger", "zpp_bits.h: basic_out::endian_aware", "zpp_bits.h: options"]}
{"id": "C65", "title": "Relaying never needs more room", "statement": "Whatever an input archive read successfully can be written again by an output archive of the same byte order and default size type, takes at most as many bytes as were consumed (so a fixed buffer with that much room suffices), and is read back as the same value by every reader of that format, unless that reader lacks memory, stack or allocation limit. Types without extent of their own and zig-zag varints over unsigned types are excluded.", "quantifier": "for every self-describing type, every input, position and previous target, every reader and writer configuration of one format, every fixed buffer", "why_tests_cant": "Non-canonical inputs (superfluous varint digits, repeated keys, odd flags) form an infinite set; tests only read what the library wrote.", "anchors": ["zpp_bits.h: basic_out::serialize_one", "zpp_bits.h: in::serialize_one", "zpp_bits.h: varint", "zpp_bits.h: associative containers"]}
{"id": "C66", "title": "Null pointers and valueless variants stop the output, nothing else does", "statement": "A null owning pointer or a valueless variant anywhere in the value (inside members, elements, optionals, alternatives, pointees) makes the output fail: with room for it the result is invalid_argument exactly when there is such a hole and success otherwise; without room it is still never success, and invalid_argument still means there is a hole. Everything before the first such item, and the part of that item before the hole, has then been written, whatever follows.", "quantifier": "for every type, value, archive configuration and buffer state", "why_tests_cant": "Holes can be at any depth of any type; tests have one null pointer at the top.", "anchors": ["zpp_bits.h: basic_out::serialize_one(variant)", "zpp_bits.h: basic_out::serialize_one(owning_pointer)"]}
{"id": "C67", "title": "Each error code of reading has exactly its documented cause", "statement": "Reading succeeds exactly when the input has no fault; it returns message_size exactly when a container asks for more memory than the allocation limit, and otherwise result_out_of_range exactly when the first fault is that the input ends too early, value_too_large exactly when it is a variable length integer that does not end in time, and bad_message exactly when it is a variant id no alternative has. The limit is noticed before anything that follows it. No other code is ever returned. (Provided the input has no bool other than 0 and 1, and memory and stack suffice.)", "quantifier": "for every list of self describing types, input of any length, position, target values, archive configuration and allocation limit", "why_tests_cant": "The causes can occur at any depth and in combination; a test sees one fault of one type at a time.", "anchors": ["zpp_bits.h: README.md:173-185", "zpp_bits.h: in::serialize_one", "zpp_bits.h: in::process_elements"]}
{"id": "C68", "title": "Reading neither leaks memory nor frees it twice, whichever allocation fails", "statement": "However a read ends (success, any error code, or std::bad_alloc from any single allocation: the buffer of a vector, a node of a list, set or map, a pointee, a control block), the live heap blocks afterwards are exactly the blocks owned by the targets plus those that belonged to others before: none is lost, none is freed twice, none is owned by two objects. A refused allocation always reaches the caller as the exception; if none is refused the read behaves as without heap. Destroying the targets after any history of reads leaves no block.", "quantifier": "for every list of types without spans, input of any length, position, target objects with whatever they own, archive configuration, heap contents of the rest of the program, and every set of refused allocations; for every sequence of reads into any of the variables", "why_tests_cant": "A leak or double free needs one particular allocation to fail at one particular place of one particular input; the suite never refuses an allocation and does not count blocks.", "anchors": ["zpp_bits.h: destructor_guard", "zpp_bits.h: in::serialize_one (optional, variant, owning pointer, associative container)"]}
{"id": "C69", "title": "The messages the protobuf reader accepts are exactly those of a stated language", "statement": "Reading bytes as a protobuf message succeeds exactly when the bytes belong to the language described member by member (base-128 tags and lengths with superfluous digits allowed, the wire type looked at by containers of numbers only, unknown numbers other than 0 passed over without their payload, lengths clamped to what is left, packed blocks ended by the first element that reaches the announced end), apart from the allocation limit and exhausted memory; the object then holds exactly the values the language gives and everything has been consumed. Every other input is refused.", "quantifier": "for every well-formed schema (members of any kind, nested and recursive messages, maps), every input of any length, every object read into, every archive configuration and position", "why_tests_cant": "Tests feed messages of protobuf writers; the inputs of an attacker or of a foreign writer are arbitrary bytes and there are infinitely many of them.", "anchors": ["zpp_bits.h: pb::deserialize_fields", "zpp_bits.h: pb::deserialize_field", "zpp_bits.h: pb::operator()"]}
{"id": "C70", "title": "Classes with a serialize function of their own", "statement": "An object of a class with a user-written serialize function is on the wire exactly as the items the function hands to the archive, in that order, with nothing of the library's own added; the result is the function's own error unless the buffer gives out first. Reading with such functions, whatever they decide on the bytes read (branches on members, hand-written loops over sizes, assignments to the object), never leaves the data, keeps the object valid, depends only on the bytes consumed, and refuses every message that ends early. The object reads back if the reader's function mirrors the writer's, which holds for every function that decides knowing only what it has transferred so far and transfers all members; functions of different versions give exactly what the reader's function makes of the items. Functions that list all members in order do what the library does by itself.", "quantifier": "for every function that compiles for the class (any tree of transfers, decisions, locals, errors and assignments), classes nested in each other and in containers to any depth, every object, buffer, position, byte order and size type, all input bytes", "why_tests_cant": "The function is the user's: the library's tests contain a handful, the property is about all of them and all inputs.", "anchors": ["README.md: Explicit Serialization", "zpp_bits.h: basic_out::serialize_one (type::serialize)", "zpp_bits.h: basic_in::serialize_one (type::serialize)"]}
{"id": "C71", "title": "Views into a vector that is written to as well", "statement": "With an input and an output archive over one vector (in_out, data_in_out), a program that keeps views of const bytes it has read and uses them later - looks at them, or writes them back through the output archive - does exactly what it would do with copies of the bytes, unless it dereferences a non-empty view after a write has moved the vector to another block of memory; everything it has seen before that point is right. It never happens between a read and the next write, nor while the vector stays where it is, and a vector with capacity for what the enlarger asks at the final position (emul/ediv * 2 * (position + 10)) stays where it is. Writing back a view (an echo) into a vector without such capacity is undefined behaviour even though room is made before the bytes are copied.", "quantifier": "for every program of writes, reads and uses of any length, any number of views, every growth policy of std::vector, byte order, size type and enlarger", "why_tests_cant": "Whether a view dangles depends on the capacity the standard library happens to have left and on the whole history of writes; a use after free often shows the right bytes.", "anchors": ["README.md: Deserializing Views Of Const Bytes", "README.md: Remote Procedure Call (RPC)", "zpp_bits.h: in_out / data_in_out", "zpp_bits.h: basic_out::enlarge_for", "zpp_bits.h: basic_out::serialize_one (bytes)", "zpp_bits.h: basic_in::serialize_one (const byte views)"]}
{"id": "C72", "title": "An archive whose position is moved is a file with a cursor", "statement": "A program that writes, reads and moves the positions of its archives with position() and reset() leaves exactly the bytes of a file with a cursor: each write puts the encodings of its items over what is at the position, past the end if need be, and nothing else changes, neither bytes nor length. A record written at an offset is read back from that offset as long as no later write touches its bytes, whatever else happens in between. A header written as a placeholder and patched after the body gives the header followed by the body. If a call fails the file is that of the calls before it, with a prefix of what the failing call was to write. Programs that only write and move succeed if there is memory for the final file (fixed buffers: if nothing goes past the end).", "quantifier": "for every program of writes, reads and moves of any length, positions up to the end, every object of types without bitsets (and without varints on growable buffers), every buffer, byte order, size type and enlarger", "why_tests_cant": "The buffer is enlarged by its size plus the item, then fitted, depending on where the position was when the call began; tests move positions only to the start.", "anchors": ["zpp_bits.h: basic_out::position / reset / processed_data / remaining_data", "zpp_bits.h: out::operator() (fit size)", "zpp_bits.h: in::position / reset", "README.md: Position Control"]}
{"id": "C73", "title": "The work of a read is linear in what it consumes", "statement": "A call of an input archive that succeeds does work (calls of serialize_one, bytes passed, bytes of objects created, insertions) of at most a constant of the types plus a constant rate per byte consumed, whatever the input, however deep containers and recursive classes are nested. A call that fails may in addition have prepared for elements that never came: at most alloc_limit bytes for each vector it was in, and it was in no more vectors than are nested in the types and than it consumed bytes.", "quantifier": "for every input, position, target, stack depth, every type whose container elements take at least one byte, every byte order, size type and allocator; the second part for every alloc_limit", "why_tests_cant": "The worst case over all inputs of a length is wanted, and the sizes in the input are chosen by an adversary; a test sees the cost of one input.", "anchors": ["zpp_bits.h: in::serialize_one (container, associative container, owning pointer, optional, variant)", "zpp_bits.h: allocation_limit check before container.resize", "README.md: alloc_limit"]}
{"id": "C74", "title": "What reading a protobuf message can hold is bounded by what it consumes", "statement": "The containers of a message that was read successfully hold - at all levels of nesting together, counting the bytes of strings and fixed-width numbers and one for every varint, string, message and map entry - not more than the bytes consumed plus what was in the message members before and is not mentioned. With an alloc_limit of L the same holds however the read ends, up to L bytes that were announced and did not follow.", "quantifier": "for every schema whose value-initialised messages are empty, input, position, size prefix, previous contents, stack depth and allocator; the second part for every L", "why_tests_cant": "Lengths, repetitions and nesting in the input are chosen by an adversary; the largest result over all inputs of a length is wanted.", "anchors": ["zpp_bits.h: pb::deserialize_fields", "zpp_bits.h: pb::deserialize_field (containers, maps)", "README.md: alloc_limit"]}
{"id": "C75", "title": "The work of reading a protobuf message is linear in what it consumes", "statement": "Reading a protobuf message successfully takes at most B + (3B+9) n steps when it consumes n bytes, where B depends on the message types only (number of members, sizes of the objects). With an alloc_limit of L, however the read ends, it takes at most B + (3B+9) m + L steps where m is the number of bytes left. Without a limit there is no bound: eleven bytes can cost any number of steps. A packed record requests room for as many elements as it has bytes, and only when there are not as many already.", "quantifier": "for every schema, input, position, size prefix, previous contents, stack depth and allocator; the second part for every L", "why_tests_cant": "Worst-case cost over all inputs of a length: records repeat, interleave and nest as an adversary chooses, and every repeated packed record may move what is there.", "anchors": ["zpp_bits.h: pb::deserialize_fields", "zpp_bits.h: pb::deserialize_field (containers, maps)", "README.md: alloc_limit"]}
{"id": "C76", "title": "How much stack reading nested protobuf messages takes", "statement": "Messages are entered at most once for every two bytes: with more than half a level of stack per byte reading does not run out of it, and the outcome does not depend on how much there is. More stack never changes an outcome other than running out. There is no limit of the depth: for every stack there is a correct encoding, of at most eleven bytes per level, that exhausts it and is read when there is more.", "quantifier": "for every schema, input, position, size prefix, previous contents and amount of stack", "why_tests_cant": "Stack exhaustion depends on nesting that an adversary chooses; that no shorter input nests deeper, for any schema, is a statement about all inputs.", "anchors": ["zpp_bits.h: pb::deserialize_fields", "zpp_bits.h: pb::operator()"]}
{"id": "C77", "title": "Writing moves a nested protobuf message once per level", "statement": "While a protobuf message is written, each nested message (map entries included), and the message itself if its size is a varint, is moved as a whole by memmove if it takes 128 bytes or more, and not moved otherwise; on success exactly these bytes are moved, on failure at most these. Hence at most the length of the message times the levels of nesting, and nothing for messages of less than 128 bytes. No factor bounds the bytes moved by the bytes written: n messages nested in each other take at most 11 n bytes and move at least n(n-1) - 4032.", "quantifier": "for every schema, object, archive configuration, size type and buffer", "why_tests_cant": "A cost over all objects: tests see the bytes, not how often they were moved, and a quadratic cost only shows for nesting no test uses.", "anchors": ["zpp_bits.h: basic_out::serialize_one(by_protocol)", "zpp_bits.h: pb::serialize_one"]}
{"id": "C78", "title": "Reading protobuf messages neither leaks memory nor frees it twice, whichever allocation fails", "statement": "However a protobuf message is read into an object (any bytes, any earlier contents, duplicate map keys, errors in the middle, any allocations refused), afterwards the live heap blocks are exactly those the object owns and those others owned before, none was freed twice, and the object is valid. A refused allocation is reported as std::bad_alloc and is the last one asked for. If none is refused the result is that of reading with unlimited memory, whatever capacity buffers get. Value-initialised messages that are read into any number of times and then destroyed leave no block behind.", "quantifier": "for every schema, input, archive configuration, earlier contents, set of refused allocations, growth policy of buffers and sequence of reads", "why_tests_cant": "Every single allocation on the way may fail, combined with every input: temporaries of map entries, messages and strings are alive at different points; tests run with memory to spare.", "anchors": ["zpp_bits.h: pb::deserialize_fields", "zpp_bits.h: pb::deserialize_field (containers, maps)", "zpp_bits.h: detail::destructor_guard"]}
{"id": "C79", "title": "A remote function that throws does not disturb the calls around it", "statement": "serve() of a request whose function throws lets the exception out with the request consumed, the function run once with its arguments and nothing sent; a function of the remaining data that throws has skipped what it took. A server that goes on after exceptions runs every function requested once, in order, and a client that asks for the responses of the calls that returned a value gets these values and nothing is left over. With functions that do not throw everything is as without exceptions. The client has no way to see that a function threw (it takes the answer to the next call), and going on after an unknown id is not safe: arguments are taken for a request.", "quantifier": "for every table of functions, state of the server, sequence of calls, subset of calls that throw, archive configurations and earlier contents of the buffers", "why_tests_cant": "Which calls throw depends on the state the earlier ones left; the claim is about every pattern of throwing calls in a stream of requests.", "anchors": ["zpp_bits.h: rpc_impl::server::serve", "zpp_bits.h: rpc_impl::server::call_binding", "zpp_bits.h: bind, bind_opaque"]}
{"id": "C80", "title": "Whole archive calls have the same effect at compile time and at run time", "statement": "A call of an output archive evaluated by the compiler leaves the same bytes, position and result as the same call at run time, and a call of an input archive evaluated by the compiler gives the same objects, position and result on the same data; also for protocol buffers messages. It does not matter whether the bytes of the archive are of a signed type, nor what the arrays used for bit_cast held before.", "quantifier": "for every list of items of well-formed types (classes, arrays, containers, maps, optionals, variants, recursive classes), every configuration, every state of the archive and all data, also those on which the call fails", "why_tests_cant": "The constant-evaluation branches are separate code; static_asserts on a few objects cannot compare the two for all types and data, and failing calls do not compile as constants.", "anchors": ["zpp_bits.h: basic_out::serialize_one", "zpp_bits.h: in::serialize_one", "zpp_bits.h: decode_varint", "zpp_bits.h: std::is_constant_evaluated"]}
{"id": "C81", "title": "Serialize functions that throw", "statement": "A user's serialize function that throws leaves the archive, the buffer and the target exactly as the same function returning an error at that point would: the bytes written before stay, the position is behind them, the members read before are kept, and the exception is the outcome. In a fixed buffer there are no other exceptions. The archive can be used further at the position reached, and a target left behind can be read into again. One thing differs: an archive that fits its buffer to the position after each call does not do so when an exception leaves the call, and later calls cut the surplus off only once the position has reached its end.", "quantifier": "for every function that compiles for the class and throws wherever it likes, classes nested in each other and in containers to any depth, every object, buffer, position and configuration, all input bytes", "why_tests_cant": "Which bytes and members are left behind depends on where in which nesting of containers the user's function throws; tests would have to throw everywhere.", "anchors": ["README.md: Explicit Serialization", "zpp_bits.h: out::operator()", "zpp_bits.h: basic_out::serialize_one (type::serialize)", "zpp_bits.h: basic_in::serialize_one (type::serialize)"]}
{"id": "C82", "title": "Protobuf messages inside ordinary data", "statement": "Ordinary data that contains protobuf messages anywhere - as members, elements, optional or pointed-to objects, map values, alternatives of variants, in recursive classes - is written exactly as ordinary data is, with the length (in the archive's size type) and the records of the message wherever there is one; it is written completely whenever there is room, or, if there is a null pointer or a valueless variant, up to the first of them, which is reported as invalid_argument. It is read back into any target by an archive with the same options on a host of the same byte order. From arbitrary bytes the position stays inside the data, the target remains a valid object, and nothing undefined happens unless a bool is read. A message that is read takes exactly the announced number of bytes (or all that is left), whatever they are, so that what follows it is found. Not so: with the other byte order or without sizes what follows a message is not found, and data that ends in a message can be cut short without an error.", "quantifier": "for every set of ordinary classes and message classes, nested in each other to any depth, every value, buffer, position and configuration, all input bytes", "why_tests_cant": "The repository's tests have messages at the top level and in one vector; the two formats can be nested in each other in unboundedly many ways, and the length prefix is patched in after the message has been written wherever that is.", "anchors": ["zpp_bits.h: basic_out::serialize_one (by_protocol)", "zpp_bits.h: basic_in::serialize_one (by_protocol)", "zpp_bits.h: pb::operator()", "README.md: Protocol Buffers"]}
{"id": "C83", "title": "Serialize functions that move the position of the archive", "statement": "A serialize function may ask for the position of the archive and move it, at any depth of nested objects. Writing then does to the buffer what the same puts and seeks do to a file with a cursor, also when the call fails; in a fixed buffer it succeeds exactly if the file fits, in a growable one whenever it can grow far enough; after a call a growable buffer is cut to where the position is left. Functions that go back and forth but amount to writing one sequence of bytes write just that. In particular frames, with a length that is filled in afterwards, carry the length of what is in them, nested in any way; they are read back into any target, and a reader that knows only the first part of a frame gets that part and continues after the frame. From arbitrary bytes, functions that check where they go against what is left never read outside of the data and leave valid objects; frame readers do. Not so: bytes beyond the final position are cut off, going past the end is not checked by the archive, and lengths of too few bytes are written without an error and not read back.", "quantifier": "for every set of classes and functions (any programs that transfer members and locals, decide, assign, ask for and set the position), every value, buffer, position and configuration, all input bytes", "why_tests_cant": "The tests of the repository move the position between calls only. Functions are arbitrary programs and nest; that moving inside of them leaves no trace on anything around, in growing buffers too, is a statement about all of them.", "anchors": ["zpp_bits.h: basic_out::position, reset", "zpp_bits.h: basic_in::position, remaining_data, reset", "zpp_bits.h: serialize_one (archive functions)", "zpp_bits.h: out::operator()", "README.md: Explicit Serialization", "README.md: Position Control"]}
{"id": "C84", "title": "Classes serialized through objects of other classes", "statement": "A serialize function may convert the object to one of another class that has a serialize function itself and serialize that in its place, at any depth. Whenever writing succeeds, the bytes are those of the items the functions transfer, one after the other, those of the objects gone through in place: an object sent as one of another class puts the very bytes of that one on the wire. Fixed buffers give result_out_of_range exactly if that does not fit, growable ones the functions' own result if they can grow; nothing outside of the window is touched. The stack only decides whether there is a result. From arbitrary bytes there is no access outside of the data, the target and every object gone through are valid, only the consumed bytes matter, and a truncated message is rejected. What is written is read back if the reader's functions mirror the writer's and the conversion back undoes the conversion there; a reader that knows only the other class reads that. Reading through another class replaces the target entirely or not at all. Not so: a class that goes through its own class runs out of stack on every object and every input, and a conversion that loses information is not noticed.", "quantifier": "for every set of classes and functions (any programs that transfer members and locals of any type), every value, buffer, position, stack and configuration, all input bytes", "why_tests_cant": "The written values are computed by user functions and are no longer part of the object, so nothing bounds their nesting; the statements are about all functions and all depths.", "anchors": ["zpp_bits.h: serialize_one (archive functions)", "zpp_bits.h: out::operator()", "README.md: Explicit Serialization"]}
{"id": "C85", "title": "The work of writing is linear in the objects and bytes written, except where calls fit the buffer", "statement": "Counting a step for every object passed to serialize_one, every byte stored, and every byte the buffer is enlarged by or moves: a successful call that does not have to enlarge the buffer takes exactly one step per object and one per byte; objects are counted once where an array, a contiguous container or a class is copied at once, so never more often than the value has objects. With the default enlarger any call, whatever its outcome and however the container manages its memory, takes at most nine further steps per byte up to the position reached, and other enlargers a factor that depends on theirs. Under no_fit_size the same bound holds for any number of calls together. Not so: with the default options calls that fit the buffer make the work of a sequence of calls quadratic (k calls of one byte initialise at least k*k/4 bytes), and the work of a call is not bounded by the bytes it writes, as objects that take no bytes are visited too.", "quantifier": "for every value, type, configuration, buffer, sequence of calls, allocator and reallocation policy", "why_tests_cant": "Amortised bounds over all values and all sequences of calls; a test sees single running times.", "anchors": ["zpp_bits.h: basic_out::enlarge_for", "zpp_bits.h: basic_out::serialize_one", "zpp_bits.h: out::operator()", "README.md: no_fit_size"]}
{"id": "C86", "title": "A server whose functions are coroutines does what one with functions that return and throw does", "statement": "If any bound function returns zpp::throwing, serve() is a coroutine. With coroutines that run when called, the coroutine named by a request runs once with the arguments sent; its value is sent and received by the client, and if it ends with an error, awaiting serve() gives that error and nothing is sent; context, position, bytes and outcome are those of a server whose functions return these values and throw these errors. Not so: a coroutine without a value that has parameters is not awaited by serve(), so its error is lost, and it never runs if coroutines run when awaited; a function with parameters that returns errc for success makes such a server yield the code of success as an error, though the same function is served successfully when no other function is a coroutine; if coroutines run when awaited, serve() uses an id that no longer exists, only serve(id) works.", "quantifier": "for every table of functions and coroutines, request, type, configuration and context", "why_tests_cant": "Quantifies over all tables and coroutines; the tests that exist need zpp_throwing.h and only run coroutines that succeed.", "anchors": ["zpp_bits.h: server::call_binding_throwing", "zpp_bits.h: server::serve", "zpp_bits.h: client::response", "zpp_bits.h: apply", "README.md: co_await server.serve()"]}
{"id": "C87", "title": "The width of size_t does not change what is written and read", "statement": "With size types no wider than std::size_t, or with an allocation limit, an input archive does on a platform with a std::size_t of any width exactly what it does with 64 bits, on all inputs; with any size types it accesses nothing outside the data and leaves valid objects. An output archive whose enlarger divides by 1 or 2 succeeds on such a platform exactly when it does with 64 bits, with the same buffer; the only other difference is that it returns no_buffer_space where with 64 bits the allocator throws. So data written on one platform is read on any other, also with size_varint, whose size type is as wide as std::size_t. However large buffer and data are, a write stays within the buffer. Not so: with size_native, data from a 64-bit platform is misread without an error on a 32-bit one; a size type wider than std::size_t without a limit makes a message that states 2^32+1 elements be read as one of a single element; with no_enlarge_overflow, appending a byte to a vector of 1431655765 bytes shrinks it to one byte and writes outside; with enlarger<10,9> growth is refused from 2^32/10 bytes on, although the memory is there.", "quantifier": "for every width from 16 to 64, type, value, configuration, input, position and buffer below half of the address space", "why_tests_cant": "Quantifies over platforms; the tests run on one of them, and the differences need buffers of gigabytes.", "anchors": ["zpp_bits.h: basic_out::enlarge_for", "zpp_bits.h: out::operator()", "zpp_bits.h: in::serialize_one", "zpp_bits.h: options::no_enlarge_overflow", "zpp_bits.h: options::enlarger"]}
{"id": "C88", "title": "Containers whose size type is signed", "statement": "With a signed size type (char, int, vint32_t, ...) the size read is sign-extended to std::size_t. Whatever is read, there is no access outside the input and the target stays valid. A negative size is never accepted: a vector or string gets message_size from an allocation limit or throws, keeping its elements; a view or span gets result_out_of_range; a set or map whose elements take a byte or more never succeeds. What is written comes back if every count of a signed size type is below half of its range, and for such data it does not matter whether char is signed. Without that condition it is false: 200 bytes with a size of type signed char are written with success and can not be read.", "quantifier": "for every choice of signed size types, type, value, input, position, previous contents and configuration", "why_tests_cant": "The failure needs counts with the sign bit and differs between platforms (signedness of char); that no input makes a negative size accepted is a statement about all inputs.", "anchors": ["zpp_bits.h: in::serialize_one (containers, sized)", "zpp_bits.h: out::serialize_one (containers)", "zpp_bits.h: sized_t", "README.md: sized containers"]}
{"id": "C89", "title": "Protobuf messages on platforms with another width of size_t", "statement": "Reading a protobuf message is memory safe, terminates and leaves a valid object whatever the width of std::size_t. Messages that a conforming writer may produce, and that fit into the address space, have the same effect for every width; so what is written on one platform is read on any other. For other input the outcome may differ: a nested message stating 2^32 bytes is cut to what there is with 64 bits and refused with 32; a packed field of a list stating 2^32-6 bytes is taken for an empty one with 32 bits, as length + position wraps, and refused with 64.", "quantifier": "for every width of 1, 2, 4 or 8 bytes, schema, message, input, position, previous contents and configuration", "why_tests_cant": "Quantifies over platforms and all messages; the tests run on one platform.", "anchors": ["zpp_bits.h: vsize_t", "zpp_bits.h: pb::operator()", "zpp_bits.h: pb::deserialize_field", "zpp_bits.h: options::size_varint"]}
{"id": "C90", "title": "A message that arrives in pieces can be read by trying again", "statement": "std::errc::result_out_of_range is the only answer of reading that more data can change: any other answer (success, another error, an exception of the allocator, running out of stack) for the beginning of some data is the answer for all of them, with the same contents of the items and the same position. So a program that collects pieces and reads again from the start after every piece, into the same half-filled items, while the answer is result_out_of_range gets the answer it would get for all of the data at once. Messages that the library wrote, one after the other in one stream cut anywhere, come out as they went in, each with the piece that completes it. This needs items that carry their own extent: a span that is too small gives result_out_of_range however much arrives, so the program waits for ever; a view of the rest is satisfied with the first piece.", "quantifier": "for every type of item, data, way to cut them into pieces, previous contents, position, archive option and amount of stack", "why_tests_cant": "Quantifies over all data and all ways to cut them; every attempt starts from what the failed ones left in the targets.", "anchors": ["zpp_bits.h: in::operator()", "zpp_bits.h: in::serialize_one", "zpp_bits.h: in::reset"]}
{"id": "C91", "title": "Protobuf messages that arrive in pieces", "statement": "Reading a protobuf message with a size prefix never depends on data behind the bytes announced, whatever is in them and however reading ends. So a program that collects pieces, reads the size first and waits until that many bytes are there gets what it would get from all of the data, as soon as the last byte announced has arrived; until then the object is untouched. A stream of messages written by the library, cut anywhere, comes out as it went in. Trying to read at once and waiting on std::errc::result_out_of_range, which is right for other data, does not do: a message that is cut between two records is accepted.", "quantifier": "for every schema, message, size type, way to cut the data, previous contents, position, archive option and amount of stack", "why_tests_cant": "Quantifies over all messages, well-formed or not, and all ways to cut the data.", "anchors": ["zpp_bits.h: in::serialize_one (by_protocol)", "zpp_bits.h: pb::operator()"]}
{"id": "C92", "title": "Remote procedure calls that arrive in pieces", "statement": "server.serve() on the beginning of some data either answers std::errc::result_out_of_range and has called nothing, written nothing and changed nothing, or does exactly what it does with all of the data. So a server that calls serve() after every piece, from the start of the request, while the answer is result_out_of_range, calls no function more than once, and calls the function of a client's request with its arguments when the last byte of it is there. This needs a response archive that can grow and functions that do not return result_out_of_range themselves: a response without room, or such a function, gives the same answer after the call, and the function is called again with every piece. An opaque function is called with what happens to be there.", "quantifier": "for every table of functions, context, request or other input, way to cut it, position and state of the archives", "why_tests_cant": "Quantifies over all functions, inputs and ways to cut them.", "anchors": ["zpp_bits.h: rpc_impl::server::serve", "zpp_bits.h: rpc_impl::server::call_binding", "zpp_bits.h: apply"]}
{"id": "C93", "title": "Objects with a serialize function that arrive in pieces", "statement": "Whatever a class's serialize function does with the object and decides on what it has read: an answer other than std::errc::result_out_of_range for the beginning of some data is the answer for all of them, with the same object and position. So a program that tries again with every piece while the answer is result_out_of_range ends as one read of all the data into some valid object does, and an object that can be read back at all (C70) is received as it was written, with the piece that completes it. Two things are up to the function: if it goes by what the object held, it sees what earlier attempts left there; if it answers result_out_of_range for a value, the program waits for ever.", "quantifier": "for every class environment, serialize function built from archive calls, changes of the object and decisions, data, way to cut them, position and previous object", "why_tests_cant": "Quantifies over all functions, data and ways to cut them.", "anchors": ["zpp_bits.h: basic_in::serialize_one (explicit serialize)", "zpp_bits.h: basic_in::operator()", "README: Explicit Serialization"]}
{"id": "C94", "title": "Growing to exact sizes", "statement": "With any enlarger but exact_enlarger, and without no_fit_size, a call of the output archive that begins at the end of the data leaves the buffer ending at the position, unless allocation throws. With exact_enlarger the buffer is not cut after a call: if nothing written is a varint (no varint item, no varint size), it ends at the position after every call all the same, whether the call succeeds, fails or throws; if there are varints, at most 18 bytes stay behind the position, however many calls are made, and for two varints of one byte each it is 18, although exact_enlarger is said to grow to the exact size every time.", "quantifier": "for every class environment, value, type, allocation limit, allocator, growable buffer and enlarger", "why_tests_cant": "Quantifies over all values, types, limits and allocators; the number of spare bytes depends on the sequence of varint lengths.", "anchors": ["zpp_bits.h: basic_out::enlarge_for", "zpp_bits.h: out::operator()", "zpp_bits.h: varint serialize (output)", "zpp_bits.h: exact_enlarger", "README: enlarger, exact_enlarger"]}
{"id": "C95", "title": "Protobuf messages read again after memory ran out", "statement": "If reading a protobuf message throws, whatever was read of it by then, the position of the archive is where the content of the message begins; without a size that is where the message begins. A program that catches std::bad_alloc, sets the position back and reads into the same object again gets, with the first attempt that finds enough memory, exactly the message that was written: no element appears twice, nothing of earlier attempts stays, nothing leaks. If allocations are refused only up to some point, enough attempts succeed. Without a size the position need not be set back; with a size it must be: a program that just calls again takes the beginning of the content for the size and may report success with another message.", "quantifier": "for every set of refused allocations, growth policy, message type, message, previous object, number of attempts", "why_tests_cant": "Quantifies over which allocations fail, in every attempt, and over all messages.", "anchors": ["zpp_bits.h: pb::operator() (in)", "zpp_bits.h: pb::deserialize_fields", "zpp_bits.h: basic_in::position", "zpp_bits.h: basic_in::serialize_one (by_protocol)"]}
{"id": "C96", "title": "Objects read again after memory ran out", "statement": "A program that catches std::bad_alloc around in(items...), sets the position back and calls again with the same items ends, whatever the data and whichever allocations were refused in every attempt, with another exception or as one read of the data into any valid objects does: same status, position and, on success, values; and the live blocks are exactly those that the items own. If allocations are refused only up to some point, enough attempts end without an exception. So values written by one call are read as they were, with the first attempt that has enough memory. The position must be set back: an exception leaves it in the middle of an item, and a program that just calls again can report success with other values.", "quantifier": "for every set of refused allocations, type, data, position, previous values, number of attempts", "why_tests_cant": "Quantifies over which allocations fail in which attempt, and over all data.", "anchors": ["zpp_bits.h: basic_in::operator()", "zpp_bits.h: basic_in::serialize_one", "zpp_bits.h: basic_in::position"]}
{"id": "C97", "title": "Objects written again after memory or room ran out", "statement": "A program that catches std::bad_alloc around out(items...) or sees no_buffer_space or result_out_of_range, sets the position back and calls again with the same items: if it ends with success, the buffer holds its old bytes up to the position, the encoding of the items and zeros, as if the first attempt had succeeded, however many attempts failed, wherever in the items, and with bitsets too, whose bits are or-ed into what the failed attempts left. One attempt with enough memory is enough for the program to end with success (or with invalid_argument for a null pointer or a valueless variant). A reader that itself runs out of memory and tries again as in C96 gets the items as they were with the first attempt that is refused nothing. The buffer must be zero from the position on at first, and the position must be set back: a program that just calls again reports success with the items of the failed attempt written twice.", "quantifier": "for every number of attempts, memory found by each, type, value, position", "why_tests_cant": "Quantifies over which allocations fail in which attempt, and over all values.", "anchors": ["zpp_bits.h: basic_out::operator()", "zpp_bits.h: out::operator()", "zpp_bits.h: basic_out::enlarge_for", "zpp_bits.h: basic_out::position"]}
{"id": "C98", "title": "Data with protobuf messages written again after memory or room ran out", "statement": "A program that catches std::bad_alloc around out(items...) or sees no_buffer_space or result_out_of_range, sets the position back and calls again with the same items, which may hold protobuf messages anywhere: if it ends otherwise than for want of room, the buffer holds its old bytes up to the position and then the encoding of the items with the lengths and records of all messages, up to the first null pointer or valueless variant if there is one (invalid_argument). A failed attempt may leave placeholders of lengths and messages not yet moved behind their length; nothing of it shows. Without bitsets the buffer may hold anything from the position on. One attempt with enough memory is enough. After success the items are read back as they were, into objects holding anything. A program that does not set the position back can report success with other bytes.", "quantifier": "for every number of attempts, memory found by each, schema, type, value, position, previous contents", "why_tests_cant": "Quantifies over which allocations fail in which attempt, over all schemas and values.", "anchors": ["zpp_bits.h: basic_out::operator()", "zpp_bits.h: out::operator()", "zpp_bits.h: basic_out::serialize_one(by_protocol)", "zpp_bits.h: basic_out::position"]}
{"id": "C99", "title": "Output over old bytes", "statement": "What a buffer holds never decides whether, how far or where out(...) writes: two buffers of the same size give the same status, position and size. Over any old bytes the items are written as far as they fit, without undefined behaviour and without touching the bytes before the position; each byte is that of the encoding, except that bytes of bitsets can come out or-ed with the byte that was there. So only bitsets need a buffer that is zero from the position on.", "quantifier": "for every type, value, configuration, position, previous contents and failure point", "why_tests_cant": "Quantifies over all previous contents of the buffer.", "anchors": ["zpp_bits.h: basic_out::serialize_one", "zpp_bits.h: basic_out::serialize_one(bitset)", "zpp_bits.h: out::operator()"]}
