{"id": "C01", "title": "A successful read returns a message the schema admits, and consumes exactly its encoding", "statement": "If struct_cast_le / struct_cast_be returns a value, then that value satisfies the schema at every nesting level (lengths equal what the sibling fields say, optionals present exactly when their predicate holds, the held alternative is the one selected, every constraint holds) and the bytes consumed are exactly the wire encoding of that value, nothing more and nothing less.", "quantifier": "every accepted schema (any nesting, any number of fields), both byte orders, both host orders, every input byte sequence", "why_tests_cant": "The schema space and the input space are infinite; tests pin a few schemas on a few buffers.", "anchors": ["include/cast/struct_cast_impl.hpp: struct_cast_impl::operator()", "include/field_read/field_reader.hpp: read_field (all specialisations)", "include/field_read/read_impl.hpp: read_impl"]}
{"id": "C02", "title": "Every admissible message can be read back from its encoding", "statement": "For every value that satisfies the schema, reading its wire encoding followed by any trailing bytes succeeds, returns exactly that value and leaves exactly the trailing bytes.", "quantifier": "every accepted schema, every admissible value, every trailing byte sequence, both byte orders", "why_tests_cant": "Completeness of a parser is a statement about all messages of all schemas.", "anchors": ["include/cast/struct_cast_impl.hpp", "include/field_read/field_reader.hpp", "docs/reading.md"]}
{"id": "C03", "title": "Write-then-read round trip", "statement": "If stream_cast succeeds on a struct, then struct_cast of the emitted bytes succeeds and returns the same struct, except that derived slots (lengths, discriminants) and frozen (eq) slots hold the values that were put on the wire.", "quantifier": "every accepted schema, every struct value, both byte orders, every trailing byte sequence", "why_tests_cant": "Needs all schemas and all values; the failing corners are cross-feature combinations nobody enumerates.", "anchors": ["include/cast/stream_cast_impl.hpp", "include/field_write/field_writer.hpp", "include/field_write/derived_value.hpp", "docs/writing.md"]}
{"id": "C04", "title": "Read-then-write reproduces the bytes", "statement": "A struct obtained from a successful struct_cast can be handed unchanged to stream_cast with the same byte order; the write succeeds and emits exactly the bytes the read consumed.", "quantifier": "every accepted schema, every input, both byte orders", "why_tests_cant": "Byte-for-byte identity over all inputs; equality constraints compared after conversion and comparisons that ignore bytes are easy to miss by sampling.", "anchors": ["include/cast/stream_cast_impl.hpp", "include/field_write/derived_value.hpp: derive_value", "include/field/field_traits.hpp: frozen_value_of"]}
{"id": "C05", "title": "Bytes after the message are never looked at", "statement": "The result of a successful read, and the number of bytes consumed, do not depend on the bytes that follow the message; consecutive messages in one stream are therefore parsed independently.", "quantifier": "every schema, every input, every pair of trailing byte sequences", "why_tests_cant": "A relation between two runs over all suffixes.", "anchors": ["include/cast/struct_cast_impl.hpp", "include/field_read/read_impl.hpp"]}
{"id": "C06", "title": "A truncated message is reported as buffer_exhaustion", "statement": "If a byte sequence is completely consumed by a successful read, then reading any strict prefix of it fails with buffer_exhaustion and with no other outcome.", "quantifier": "every schema, every accepted message, every truncation point", "why_tests_cant": "Every cut point of every message of every schema.", "anchors": ["include/field_read/read_impl.hpp: read_native_impl", "docs/errors.md", "docs/reading.md: Read errors"]}
{"id": "C07", "title": "failed_at names the first failing top-level field, and everything before it was read in full", "statement": "When a cast fails, failed_at is the id of a field of the schema passed to the cast (the outermost record field for a nested failure); all fields declared before it were processed successfully and no field after it touched the stream.", "quantifier": "every schema, every input or struct, both directions", "why_tests_cant": "Quantifies over every failure position in every nesting.", "anchors": ["include/cast/struct_cast_impl.hpp", "include/cast/stream_cast_impl.hpp", "include/error/cast_error.hpp: operator|", "docs/errors.md: What failed_at names"]}
{"id": "C08", "title": "Error vocabulary of each direction", "statement": "A read never reports found_contradicting_length; a write never reports excessive_length; a write reports buffer_exhaustion only if the stream refused a write, a read only if the stream refused a read.", "quantifier": "every schema, every stream, every input or struct", "why_tests_cant": "Absence of an outcome cannot be established by running examples.", "anchors": ["include/error/cast_error.hpp: error_reason", "docs/errors.md"]}
{"id": "C09", "title": "No wire-driven allocation exceeds its ceiling", "statement": "Every container resize performed while reading requests at most the ceiling in force for that field (declared max_bytes, else the default), counted as element count times element size, and that product never wraps around.", "quantifier": "every schema, every stream (hostile lengths included), every point of the read, every value of the default ceiling", "why_tests_cant": "A bound over every reachable allocation under every hostile input.", "anchors": ["include/field_read/read_impl.hpp: checked_byte_count, read_native", "include/field_read/field_reader.hpp: vector_of_record_field_like", "docs/reading.md: Allocation limits"]}
{"id": "C10", "title": "excessive_length is exact and fires before the field touches the stream", "statement": "A container field fails with excessive_length if and only if its element count times its element size exceeds the ceiling (the ceiling itself is allowed); in that case nothing is allocated for it and not one byte is read for it.", "quantifier": "every element size, every ceiling, every claimed length up to the largest size_t", "why_tests_cant": "Boundary behaviour at every ceiling/size/length combination including products that wrap.", "anchors": ["include/field_read/read_impl.hpp: checked_byte_count", "include/field_read/field_reader.hpp"]}
{"id": "C11", "title": "A returned struct satisfies all its constraints", "statement": "If a read succeeds, every constraint in the schema holds of the corresponding returned value: top-level fields, fields of nested records, every record of an array or vector, the held alternative, and the constraint on the variant itself.", "quantifier": "every schema, every input, every nesting depth and element position", "why_tests_cant": "Constraints at every depth and index of every message.", "anchors": ["include/cast/struct_cast_impl.hpp:38", "include/field_read/field_reader.hpp: read_variant_impl", "docs/constraints.md"]}
{"id": "C12", "title": "Comparison constraints mean the mathematical comparison", "statement": "eq/neq/lt/gt/lte/gte/any_of on an integral field accept a wire value exactly when the numeric relation between that value and the literal holds.", "quantifier": "every integral field type, every literal type, every field value", "why_tests_cant": "Implicit conversions only misbehave on particular type/value combinations.", "anchors": ["include/field_validation/field_value_constraints.hpp: eq, neq, lt, gt, lte, gte, any_of", "docs/constraints.md"]}
{"id": "C13", "title": "The host's endianness is unobservable", "statement": "For the same schema and wire byte order, a little-endian host and a big-endian host read the same values from the same bytes and write the same bytes for the same struct, with the same errors.", "quantifier": "every schema, every stream, every struct, both wire orders", "why_tests_cant": "Tests run on one host.", "anchors": ["include/stream/byte_order.hpp: deduce_byte_order, byteswap_elements", "include/field_read/read_impl.hpp: read_foreign_scalar, read_foreign_buffer", "include/field_write/write_impl.hpp"]}
{"id": "C14", "title": "Scalar wire layout", "statement": "A full-width integral field is laid out as the two's complement representation of its value, least significant byte first under _le and most significant byte first under _be, independently in each element of arrays and vectors of any dimension.", "quantifier": "every scalar width, every value, every array shape, both byte orders", "why_tests_cant": "All values of all widths and shapes.", "anchors": ["include/stream/byte_order.hpp", "include/field_read/read_impl.hpp", "include/field_write/write_impl.hpp"]}
{"id": "C15", "title": "A field declared narrower than its type carries the value in that many bytes", "statement": "For basic_field<id, T, n_B> with n below sizeof(T): reading returns the number the n bytes denote in the cast's byte order, and writing a value that fits n bytes then reading gives the value back; a value that does not fit is rejected rather than truncated.", "quantifier": "every type width, every declared width, every value, both byte orders", "why_tests_cant": "Width x value x byte order combinations; the failing ones are not the ones in the test suite.", "anchors": ["include/field_read/read_impl.hpp:96-105", "include/field_write/write_impl.hpp:53-59", "docs/schema/size-axis.md", "include/field_write/derived_value.hpp:293-305"]}
{"id": "C16", "title": "A length field on the wire equals the container's size", "statement": "After a successful write, the bytes of every field that is the len_from_field source of a top-level container encode exactly that container's element count, whatever the struct's slot held.", "quantifier": "every schema, every struct, any number of containers sharing the field", "why_tests_cant": "All sizes, all stale slot contents, all sharing patterns.", "anchors": ["include/field_write/derived_value.hpp: derive_value", "docs/writing.md: Derived fields are read-only"]}
{"id": "C17", "title": "A discriminant on the wire selects the held alternative", "statement": "After a successful write, the bytes of every match_field discriminant encode the match_case value of the alternative held, and a reader of those bytes selects that same alternative.", "quantifier": "every type_switch (any number of cases, any match value types), every held alternative", "why_tests_cant": "Selection and inversion have to agree for every case list and value type.", "anchors": ["include/field_write/derived_value.hpp: discriminant_obligation", "include/type_deduction/switch/switch_impl.hpp", "include/type_deduction/type/type_deduction_metafunctions.hpp: has_unique_match_values"]}
{"id": "C18", "title": "Contradicting lengths are always detected", "statement": "If two dependents of one derived field imply different values, the write fails with found_contradicting_length at that field and emits nothing of it; if all dependents agree, this error is not reported for it.", "quantifier": "every schema, any number of dependents, every assignment of sizes", "why_tests_cant": "Any number of dependents in any order; a last-write-wins comparison could hide some.", "anchors": ["include/field_write/derived_value.hpp: derive_value::operator()"]}
{"id": "C19", "title": "A field pinned with eq is written as the pinned value", "statement": "A successful write puts the value of the eq constraint on the wire for every frozen field, whatever the struct's slot held, and that field then passes its own constraint when read. Arrays with a NaN in the literal are excepted (C75).", "quantifier": "every frozen field type, width and literal, both byte orders, every slot content", "why_tests_cant": "All types/widths/literals; narrowing of the literal is the interesting corner.", "anchors": ["include/field/field_traits.hpp: frozen_field_like, frozen_value_of", "include/field_write/field_writer.hpp:44-52", "include/api/field_descriptors.hpp: magic_number, magic_string, magic_byte_array"]}
{"id": "C20", "title": "Slots the user cannot assign do not influence a write", "statement": "Two structs that agree on all assignable fields write identically (same bytes, same error), whatever their derived and frozen slots hold - in particular a fresh struct and one that came from struct_cast.", "quantifier": "every schema, every pair of structs agreeing on assignable fields", "why_tests_cant": "A relation between two runs over all slot contents.", "anchors": ["include/field_list/field_list.hpp: operator[]", "include/field_compute/computation_from_fields_impl.hpp: compute_impl", "include/field_write/derived_value.hpp", "docs/writing.md"]}
{"id": "C21", "title": "Optional fields occupy bytes exactly when present", "statement": "A maybe field is present in the result exactly when its predicate holds of the fields read before it; an absent one neither reads nor writes a byte and never touches the stream; on write a disagreement between has_value() and the predicate is a validation_failure at that field with nothing of it emitted.", "quantifier": "every base field, predicate, sibling values, stream", "why_tests_cant": "All predicates and all sibling contents.", "anchors": ["include/field_read/field_reader.hpp:195-218", "include/field_write/field_writer.hpp:180-208", "docs/schema/optional-and-variant.md"]}
{"id": "C22", "title": "Variance selection is first-match, and a write agrees with it", "statement": "The alternative read is the first match_case (or branch) that matches, type_deduction_failure is reported exactly when none matches, only the selected alternative touches the stream, and for computed switches and ladders a write succeeds only if the held alternative is the one a reader would select from the struct's stored fields.", "quantifier": "every case list / ladder, every sibling values", "why_tests_cant": "Any number of overlapping cases.", "anchors": ["include/type_deduction/switch/switch_impl.hpp", "include/type_deduction/if_else_ladder/ladder_impl.hpp", "include/field_read/field_reader.hpp: read_variant_helper", "include/field_write/field_writer.hpp:253-285"]}
{"id": "C23", "title": "A failed write leaves fields 0..k-1 and nothing of k", "statement": "If a write fails at field k for any reason other than the stream refusing bytes, then the stream holds exactly the complete encodings of fields 0..k-1 and no byte of field k.", "quantifier": "every schema, every struct, every failing field", "why_tests_cant": "Every failure at every depth, including inside nested records.", "anchors": ["docs/writing.md: Write-once, fail-fast", "include/cast/stream_cast_impl.hpp", "include/field_write/field_writer.hpp: write_nested"]}
{"id": "C24", "title": "What reaches a failing stream is a prefix of the full encoding", "statement": "Whatever the output stream does (refuse any write, accept part of it), the bytes handed to it before the refusal are a prefix of the bytes a healthy stream would have received, and the error is buffer_exhaustion at the field being written.", "quantifier": "every schema, every struct, every point at which the stream fails", "why_tests_cant": "Every fault position.", "anchors": ["include/field_write/write_impl.hpp", "include/cast/stream_cast_impl.hpp"]}
{"id": "C25", "title": "Computed lengths are verified", "statement": "A container sized by len_from_fields is written only if the callable's result on the struct equals the container's element count; otherwise the write fails with found_contradicting_length at the container and none of its bytes are emitted.", "quantifier": "every callable, every sibling values, every container", "why_tests_cant": "All callables and sizes.", "anchors": ["include/field_write/field_writer.hpp:83-96,161-177", "include/field_size/field_size_deduce.hpp"]}
{"id": "C26", "title": "Conditional lengths are verified", "statement": "A length field whose container sits in a maybe or in a union alternative is written only if it equals the container's element count whenever that container will be written; otherwise found_contradicting_length at the length field. When the container is not going to be written the length field is unconstrained.", "quantifier": "every schema with conditional producers, every struct", "why_tests_cant": "All combinations of active and inactive producers.", "anchors": ["include/field_write/derived_value.hpp: verify_conditional_len", "include/field_write/field_writer.hpp:58-72"]}
{"id": "C27", "title": "A length that does not fit its declared width is rejected, never truncated", "statement": "If a derived or verified length does not fit the declared byte width of its field, the write fails with validation_failure at the length field; hence a length field on the wire always decodes to the real count.", "quantifier": "every type, declared width and container size, derived and verified lengths, both byte orders", "why_tests_cant": "All widths and sizes; the two paths (derive, verify) are separate code.", "anchors": ["include/field_write/derived_value.hpp:293-305", "docs/writing.md: What is checked at write time"]}
{"id": "C28", "title": "Compile-time and run-time casts agree", "statement": "The constant-evaluation path (element-by-element access through a constexpr stream) and the run-time path (bulk access) return the same value or the same error for the same bytes, and write the same bytes for the same struct.", "quantifier": "every schema, every input, every struct", "why_tests_cant": "The two paths are different code for every container type; equality over all inputs.", "anchors": ["include/field_read/read_impl.hpp:36-94", "include/field_write/write_impl.hpp:14-51", "docs/compile-time.md"]}
{"id": "C29", "title": "The result depends only on the bytes the stream delivers", "statement": "Two input streams that deliver the same byte sequence (however they store it) give the same result; in particular the reference byte_stream and the constexpr memstream behave like the plain byte sequence they hold.", "quantifier": "every schema, every conforming stream implementation, every state", "why_tests_cant": "Quantifies over stream implementations.", "anchors": ["include/stream/stream_traits.hpp", "docs/streams.md: A reference implementation", "test/utils/constexpr_memstream.hpp"]}
{"id": "C30", "title": "No input can cause undefined behaviour", "statement": "For every schema the library accepts, reading any byte sequence never accesses memory outside the field being read or compared, and never produces a value its type does not have.", "quantifier": "every accepted schema, every byte sequence", "why_tests_cant": "Absence of UB for all hostile inputs.", "anchors": ["include/api/field_descriptors.hpp: magic_number", "include/lib/containers/fixed_string.hpp: operator==", "include/field_read/read_impl.hpp: read_native_impl"]}
{"id": "C31", "title": "Field ids are accepted iff pairwise distinct", "statement": "struct_field_list accepts the ids of its fields exactly when they are pairwise distinct; likewise variance accepts its alternatives / match values exactly when they are pairwise distinct (match values compared as size_t).", "quantifier": "every list of ids / type ids / match values", "why_tests_cant": "All lists.", "anchors": ["include/api/struct_field_list.hpp: are_field_ids_unique", "include/lib/containers/static_set.hpp", "include/lib/algorithms/algorithms.hpp: equal_ranges", "include/type_deduction/type/type_deduction_metafunctions.hpp"]}
{"id": "C32", "title": "Dependency check: a field depends only on fields already on the wire", "statement": "A schema is accepted only if every field named by a length, a predicate, a discriminant or a computed input is declared in the same list strictly before the field that uses it.", "quantifier": "every schema", "why_tests_cant": "All dependency graphs; unknown names and self references are the corners.", "anchors": ["include/field_list/field_list_metadata.hpp: is_dependencies_resolved", "include/api/struct_field_list.hpp: dependency_check"]}
{"id": "C33", "title": "operator[] refuses assignment to exactly the fields the writer overwrites", "statement": "For every field id: a mutable reference is available exactly when the writer emits the stored value; a const reference only when the field is a discriminant or frozen and not a length target; a length target is not reachable at all; every other name is rejected.", "quantifier": "every schema, every field id, const and non-const objects", "why_tests_cant": "All schemas; two separate scans (accessor policy and writer) have to agree.", "anchors": ["include/field_list/field_list.hpp: operator[]", "include/field_write/derived_value.hpp: is_derived_target, is_frozen_target"]}
{"id": "C34", "title": "Descriptor options are order independent", "statement": "The trailing options of a descriptor (size, constraint, bound) resolve to the same field whatever order they are written in; an omitted option takes its default; two options of one kind are rejected; a declared max_bytes is independent of the global default.", "quantifier": "every option pack, every permutation", "why_tests_cant": "All permutations of all packs.", "anchors": ["include/field/field_options.hpp", "include/field_size/field_size.hpp: bound_value"]}
{"id": "C35", "title": "Fixed-layout schemas have a fixed size", "statement": "A schema made only of fixed-size fields, records and arrays of records consumes the same number of bytes for every successful read, emits that many for every successful write, and never allocates.", "quantifier": "every fixed-layout schema, every input, every struct", "why_tests_cant": "All schemas and inputs.", "anchors": ["include/field_read/field_reader.hpp", "include/field_write/field_writer.hpp"]}
{"id": "C36", "title": "A nested record reads and writes exactly as on its own", "statement": "Reading or writing a struct_field consumes / emits exactly the bytes of its schema cast on its own, with the same success or failure; nothing declared in the enclosing schema influences it, and array_of_records / vector_of_records are repetitions of it.", "quantifier": "every nested schema, every enclosing schema, every input", "why_tests_cant": "Context independence over all contexts.", "anchors": ["include/field_read/field_reader.hpp:93-191", "include/field_write/field_writer.hpp:100-178"]}
{"id": "C37", "title": "Appending fields does not change how the existing ones are read or written", "statement": "If a schema is extended by appending fields, then on every input the original fields are read to the same values, or fail with the same error, as before; and they are written as before, unless an appended field takes its length or discriminant from one of them.", "quantifier": "every schema, every extension, every input, every struct", "why_tests_cant": "A relation between two schemas over all inputs.", "anchors": ["include/cast/struct_cast_impl.hpp", "include/cast/stream_cast_impl.hpp"]}
{"id": "C38", "title": "Name lookup finds the declared field", "statement": "For a list with pairwise distinct ids, looking up a declared id yields exactly its own position, whatever the declaration order, and looking up an undeclared name yields nothing.", "quantifier": "every list of ids up to the table capacity", "why_tests_cant": "All lists and names; the table is padded, deduplicated and sorted on the way.", "anchors": ["include/lib/containers/static_map.hpp", "include/lib/algorithms/algorithms.hpp: sort_ranges", "include/field_list/field_list_metadata.hpp: lookup_field"]}
{"id": "C39", "title": "Run-time type ids are unique", "statement": "Successive distinct types obtain distinct ids 0,1,2,... up to the capacity of the search.", "quantifier": "every number of previously registered types up to the capacity", "why_tests_cant": "A binary search with unsigned arithmetic over every fill level.", "anchors": ["include/lib/metaprog/mp.hpp: type_id_value::gen"]}
{"id": "C40", "title": "A claimed length is never silently reduced", "statement": "The element count a container is read with is the number its length field holds; a number that cannot be represented as size_t is rejected, not wrapped.", "quantifier": "every length field type, every value, 32-bit and 64-bit size_t", "why_tests_cant": "Tests run on 64-bit hosts only.", "anchors": ["include/field_size/field_size_deduce.hpp:17-26", "include/field_read/read_impl.hpp: checked_byte_count"]}
{"id": "C41", "title": "A magic string is accepted iff the bytes are exactly the string and its terminator", "statement": "magic_string<id, s> accepts the next size+1 bytes exactly when they are the characters of s followed by NUL.", "quantifier": "every string, every byte sequence", "why_tests_cant": "All byte sequences, including ones without a terminator.", "anchors": ["include/lib/containers/fixed_string.hpp: operator==", "include/api/field_descriptors.hpp: magic_string"]}
{"id": "C42", "title": "Accepted schemas never get stuck", "statement": "Reading or writing with an accepted schema always ends in a value or one of the documented errors: no field lookup misses, no union index is out of range, no length source is of the wrong kind.", "quantifier": "every accepted schema, every input, every struct", "why_tests_cant": "Progress over all schemas.", "anchors": ["include/field_list/field_list.hpp: field_value_of", "include/field_write/derived_value.hpp: value_at", "include/field_size/field_size_deduce.hpp"]}
{"id": "C43", "title": "sort_ranges sorts", "statement": "The constexpr sort used for the name tables returns a permutation of its input in ascending order, for every comparison that is a strict weak order.", "quantifier": "every element type, comparison and range", "why_tests_cant": "All ranges and comparisons; the pass count is a fixed function of the length.", "anchors": ["include/lib/algorithms/algorithms.hpp: sort_ranges", "include/lib/containers/static_map.hpp"]}
{"id": "C44", "title": "Built-in integer conversions and equality", "statement": "Converting a value to an integer type changes it by a multiple of 2^bits into the type's range; comparing two integers of mixed types with == is equality modulo the width of the wider type, hence true equality when signs agree or both types are signed, and not otherwise.", "quantifier": "every width, signedness and value", "why_tests_cant": "Infinitely many width and value pairs; the interesting ones are mixed-sign comparisons.", "anchors": ["include/field_write/derived_value.hpp: static_cast and comparison of derived lengths", "include/field_validation/field_value_constraints.hpp: eq, neq, any_of"]}
{"id": "C45", "title": "Memory of a whole read is bounded by the schema", "statement": "The sum of all memory a read asks the allocator for when it resizes containers never exceeds a number computed from the schema alone, whatever the stream delivers. (The copies made of the containers: C112.)", "quantifier": "every schema, stream, allocator and run, completed or not", "why_tests_cant": "Nested length fields multiply; tests use a few sizes.", "anchors": ["include/field_read/field_reader.hpp:152-220 resize", "include/field_size/field_size_deduce.hpp: ceilings", "docs/reading.md"]}
{"id": "C46", "title": "Requests and bytes of a whole read are bounded by the schema", "statement": "The number of read requests made to the stream and the number of bytes requested never exceed numbers computed from the schema alone.", "quantifier": "every schema, stream and run", "why_tests_cant": "All streams, including adversarial ones.", "anchors": ["include/field_read/field_reader.hpp", "include/field_read/read_impl.hpp"]}
{"id": "C47", "title": "Messages in sequence", "statement": "Messages written one after the other to a stream read back one after the other with the same schemas; no encoding of a valid struct is a proper prefix of another one's.", "quantifier": "every list of schemas and structs, any length", "why_tests_cant": "Arbitrary sequences of arbitrary schemas.", "anchors": ["include/api/struct_cast.hpp", "include/api/stream_cast.hpp"]}
{"id": "C48", "title": "Range constraints", "statement": "A range constraint accepts exactly the values lying in one of its ranges when the ranges do not overlap; what it accepts always lies in a range.", "quantifier": "every list of ranges and every value", "why_tests_cant": "All lists; the binary search has off-by-one corners.", "anchors": ["include/field_validation/field_value_constraints.hpp: range, is_in_open_range, is_in_closed_range (127-185)"]}
{"id": "C49", "title": "Constexpr containers", "statement": "static_vector keeps its elements, static_set each element once in order of first occurrence, static_map the last value given for each key in ascending key order; each is ill formed exactly when the capacity is exceeded. find_index and equal_ranges are what they say.", "quantifier": "every element type, capacity and argument list", "why_tests_cant": "All capacities and duplicates patterns.", "anchors": ["include/lib/containers/static_vector.hpp", "include/lib/containers/static_set.hpp", "include/lib/containers/static_map.hpp", "include/lib/algorithms/algorithms.hpp"]}
{"id": "C51", "title": "Reference streams are channels", "statement": "A struct written to the byte_stream of the documentation reads back from it and leaves nothing unread; the test memstream receives exactly the encoding, or its prefix and an error if there is no room.", "quantifier": "every schema, struct, prior contents and capacity", "why_tests_cant": "All capacities and cut points.", "anchors": ["docs/streams.md: byte_stream", "test/utils/constexpr_memstream.hpp"]}
{"id": "C50", "title": "Exact outcome of a write", "statement": "Writing a struct succeeds exactly when every present and derived slot satisfies its constraint, derived lengths agree and fit, computed lengths, optionals and variants match what the fields say; otherwise it fails at the first field in declaration order with a fault, and the reason is the one documented for that fault.", "quantifier": "every schema and every struct of its type", "why_tests_cant": "An equivalence over all structs in both directions.", "anchors": ["include/cast/stream_cast_impl.hpp", "include/field_write/field_writer.hpp", "docs/writing.md"]}
{"id": "C52", "title": "Exact outcome of a read", "statement": "A read succeeds exactly when the input starts with the encoding of a valid struct; it fails at a field for a reason exactly when the input starts with valid values of the fields before it and what follows has the fault documented for that reason: too few bytes, a length beyond the ceiling, no alternative selected, a constraint violated.", "quantifier": "every accepted schema and every byte sequence", "why_tests_cant": "An equivalence over all byte sequences in both directions.", "anchors": ["include/cast/struct_cast_impl.hpp", "include/field_read/field_reader.hpp", "include/field_read/read_impl.hpp", "docs/errors.md"]}
{"id": "C53", "title": "Exactly one reader and writer per field", "statement": "No field class matches two of the constrained specialisations of read_field / write_field, and field_like holds exactly when one matches; the same for the specialisations that deduce a size. Of a record no size is deduced.", "quantifier": "every field class over every type, size, constraint, bound", "why_tests_cant": "A rejected or ambiguous program cannot be run at all; the claim is about every type, not the ones a test names.", "anchors": ["include/field/field_traits.hpp", "include/field_read/field_reader.hpp: read_field", "include/field_write/field_writer.hpp: write_field", "include/field_size/field_size_deduce.hpp"]}
{"id": "C54", "title": "Descriptors yield a readable field exactly for supported elements", "statement": "A descriptor whose options are accepted gives a field that has a reader and a writer exactly when its element type is a number, an array of the same form over numbers, or (vectors) a record; a type tag always does. Refuted in general: fixed_array_field, c_arr_field and vec_field accept element types that no reader handles. maybe takes exactly the fields without a constraint that are not C arrays; variance exactly alternatives of distinct types, distinct match values and at most one option, a constraint.", "quantifier": "every descriptor, type tag, element type and option pack", "why_tests_cant": "A rejected or ambiguous program cannot be run at all; the claim is about every type, not the ones a test names.", "anchors": ["include/api/field_descriptors.hpp", "include/type_deduction/utils/type_tags.hpp", "include/lib/s2s_traits/type_traits.hpp"]}
{"id": "C55", "title": "The model's cases are the code's specialisations", "statement": "Every field class that has a reader is a field of the model, the case the model treats it in is the specialisation the compiler selects, and descriptors resolve to the same field. An optional keeps its base's field and has no constraint; a union keeps its alternatives in order, each with its own constraint.", "quantifier": "every field class and descriptor", "why_tests_cant": "A rejected or ambiguous program cannot be run at all; the claim is about every type, not the ones a test names.", "anchors": ["include/field/field_traits.hpp", "include/field/field.hpp", "include/api/field_descriptors.hpp"]}
{"id": "C56", "title": "Which casts compile", "statement": "Reading a fixed or variable-size field compiles exactly when it is not a vector<bool>, has no floating-point number if the order is foreign, and is no nested C array if the stream is a constexpr stream; writing exactly when it has no floating-point number (foreign order), or is not a vector<bool> (host order, run time).", "quantifier": "every type nested to any depth, both orders, both kinds of stream", "why_tests_cant": "A rejected or ambiguous program cannot be run at all; the claim is about every type, not the ones a test names.", "anchors": ["include/field_read/read_impl.hpp", "include/field_write/write_impl.hpp", "include/stream/byte_order.hpp: byteswap_elements", "include/lib/memory/address_manip.hpp"]}
{"id": "C57", "title": "Alternatives are told apart by type", "statement": "With distinct type ids for distinct types, a variance is accepted exactly when no two alternatives have the same type, and then assigning the value read to the variant selects the alternative it was read as.", "quantifier": "every list of alternatives", "why_tests_cant": "A rejected or ambiguous program cannot be run at all; the claim is about every type, not the ones a test names.", "anchors": ["include/type_deduction/type/type_deduction_metafunctions.hpp: has_unique_field_choices", "include/field_read/field_reader.hpp: read_variant_impl"]}
{"id": "C58", "title": "One overload per stream", "statement": "A stream is accepted exactly when it converts to bool and either is a constexpr stream or can be read (written). One accepted is read (written) through exactly one overload of read_native_impl (write_native_impl) unless it both derives from constexpr_stream and satisfies readable (writeable).", "quantifier": "every combination of what a stream type offers", "why_tests_cant": "A rejected or ambiguous program cannot be run at all; the claim is about every type, not the ones a test names.", "anchors": ["include/stream/stream_traits.hpp", "include/field_read/read_impl.hpp: read_native_impl", "include/field_write/write_impl.hpp: write_native_impl"]}
{"id": "C59", "title": "A switch can read its discriminant unless it is a length target", "statement": "In an accepted list the discriminant of every match_field switch can be read exactly when it is not also the len_from_field source of a container of the list. Refuted in general: the library accepts lists where a field is both, and reading them does not compile.", "quantifier": "every schema", "why_tests_cant": "A rejected or ambiguous program cannot be run at all; the claim is about every type, not the ones a test names.", "anchors": ["include/type_deduction/type/type_impl.hpp: deduce_type", "include/field_list/field_list.hpp: operator[]", "include/field_list/field_list_metadata.hpp:307-318"]}
{"id": "C60", "title": "Where a failed read leaves the stream", "statement": "A failed read has consumed exactly the encodings of the fields before the failing one plus, of that field, what the rule for its kind says: nothing beyond it, nothing at all when its length is over the ceiling or no type is selected, the whole field when its constraint is violated. Exact (iff) in memory; the same on every conforming stream when the failure is not a refused read.", "quantifier": "every schema, input and conforming stream", "why_tests_cant": "The position depends on the nesting of the failing field and on where in it the fault lies; there are unboundedly many combinations.", "anchors": ["include/cast/struct_cast_impl.hpp", "include/field_read/read_impl.hpp", "docs/errors.md"]}
{"id": "C61", "title": "Magic descriptors are constraints", "statement": "A magic descriptor resolves to the same field as the ordinary descriptor with the eq it abbreviates. For magic_number one direction needs the declared width not to exceed the type, which the ordinary descriptor checks and the magic one does not (refuted otherwise).", "quantifier": "every descriptor", "why_tests_cant": "The claim ranges over every type and option list; a test names a handful, and what does not compile cannot be run.", "anchors": ["docs/constraints.md: The magic descriptors are constraints", "include/api/field_descriptors.hpp"]}
{"id": "C62", "title": "Only containers take a bound", "statement": "A descriptor that resolves with a max_bytes option is a container whose length comes from the wire, and the field carries exactly that bound.", "quantifier": "every descriptor and option list", "why_tests_cant": "The claim ranges over every type and option list; a test names a handful, and what does not compile cannot be run.", "anchors": ["include/api/field_descriptors.hpp", "include/field/field_options.hpp"]}
{"id": "C63", "title": "When an optional field can stand in a list", "statement": "The optional of a resolved field can be put in a list exactly when the field has no explicit bound. That every optional of an admissible field can is refuted.", "quantifier": "every descriptor, option list, predicate", "why_tests_cant": "The claim ranges over every type and option list; a test names a handful, and what does not compile cannot be run.", "anchors": ["include/api/field_descriptors.hpp: maybe", "include/field/field_traits.hpp", "include/field_list/field_list_metadata.hpp"]}
{"id": "C64", "title": "Constraint classes take the documented types", "statement": "A constraint class can be used with a type exactly when the table of docs/constraints.md lists it, except gte of a fixed_string and eq/neq of a std::array. The exceptions are refuted: gte of a fixed_string never compiles, eq of an array of floats does.", "quantifier": "every constraint class and value type", "why_tests_cant": "The claim ranges over every type and option list; a test names a handful, and what does not compile cannot be run.", "anchors": ["docs/constraints.md: The constructs", "include/field_validation/field_value_constraints.hpp", "include/lib/s2s_traits/type_traits.hpp"]}
{"id": "C65", "title": "Compile-time lists and static_optional", "statement": "all_are_same, any_of, size, get and pop of the type and name lists mean what they say on lists of every length; a static_optional made from a std::optional holds the same. Its comparison with nullopt is inverted (refuted).", "quantifier": "every list and index", "why_tests_cant": "The claim ranges over every type and option list; a test names a handful, and what does not compile cannot be run.", "anchors": ["include/lib/metaprog/typelist.hpp", "include/lib/metaprog/fixed_string_list.hpp", "include/lib/containers/static_optional.hpp"]}
{"id": "C66", "title": "Type tags mirror the descriptors", "statement": "A type tag with the same options resolves to the same field as the descriptor it is named after, or is rejected alike, whenever as_trivial stands for an integral type and as_fixed_arr / as_vec hold numbers. as_trivial of a float takes the options an integer of that width takes; as_trivial, as_fixed_arr and as_vec of anything but numbers are rejected. Refuted without the guard: the descriptors take nested arrays.", "quantifier": "every type tag, element type and option list", "why_tests_cant": "The claim ranges over every type and option list; a test names a handful, and what does not compile cannot be run.", "anchors": ["include/type_deduction/utils/type_tags.hpp", "include/api/field_descriptors.hpp", "docs/schema"]}
{"id": "C67", "title": "Constraints and ceilings only refuse", "statement": "Weakening constraints and raising ceilings keeps every successful read (same struct, same bytes left) and every failure other than validation_failure and excessive_length; a read that still fails stops at the same field or a later one. Conversely, what the laxer schema reads, the stricter one reads alike or refuses with one of those two reasons.", "quantifier": "every pair of schemas so related, build pair with equal wire order, and byte sequence", "why_tests_cant": "Each claim relates all pairs of runs, schemas, messages or stream states; a test fixes one of each.", "anchors": ["include/field_read/field_reader.hpp", "include/field_validation/field_value_constraints.hpp", "include/field_read/read_impl.hpp:29-34"]}
{"id": "C68", "title": "Byte order concerns multi-byte numbers only", "statement": "If no number of a schema is wider than a byte, reads have the same outcome and writes the same bytes and outcome, whatever the host order, the wire order and the kind of stream. Refuted as soon as a number has two bytes.", "quantifier": "every such schema, build pair, byte sequence, struct", "why_tests_cant": "Each claim relates all pairs of runs, schemas, messages or stream states; a test fixes one of each.", "anchors": ["include/field_read/read_impl.hpp", "include/field_write/write_impl.hpp", "include/stream/byte_order.hpp"]}
{"id": "C69", "title": "The size of a message depends on the shape only", "statement": "Two structs that differ only in their numbers (same lengths, presences, alternatives) have encodings of the same size, and reads that produce them consume the same number of bytes.", "quantifier": "every schema and pair of structs of one shape", "why_tests_cant": "Each claim relates all pairs of runs, schemas, messages or stream states; a test fixes one of each.", "anchors": ["include/field_read/field_reader.hpp", "include/field_write/field_writer.hpp"]}
{"id": "C70", "title": "Unreferenced fields are independent", "statement": "Replacing the bytes of a field no later field takes its length, presence or type from, by those of another acceptable value, changes that value in the result and nothing else. Refuted for a field that gives a length.", "quantifier": "every schema, position, message and acceptable value", "why_tests_cant": "Each claim relates all pairs of runs, schemas, messages or stream states; a test fixes one of each.", "anchors": ["include/field_list/field_list.hpp", "include/field_read/field_reader.hpp"]}
{"id": "C71", "title": "How many bytes are enough", "statement": "With as many bytes as the ceilings of the schema add up to, no read reports buffer_exhaustion; the bound is attained. buffer_exhaustion is the only outcome that more bytes can change, and enough bytes always change it.", "quantifier": "every schema, stream and byte sequence", "why_tests_cant": "Each claim relates all pairs of runs, schemas, messages or stream states; a test fixes one of each.", "anchors": ["include/field_read/read_impl.hpp", "docs/reading.md"]}
{"id": "C72", "title": "A stream that ran out stays out", "statement": "On a stream whose failure persists, a cast that reports buffer_exhaustion leaves it failed; any later cast delivers or stores nothing, and reports buffer_exhaustion exactly if it accesses the stream. byte_stream, memstream and std::stringstream are such streams. Other errors leave the stream usable; an empty vector may be cast without any access.", "quantifier": "every sequence of casts, schema, stream state", "why_tests_cant": "Each claim relates all pairs of runs, schemas, messages or stream states; a test fixes one of each.", "anchors": ["include/field_read/read_impl.hpp:36-60", "include/field_write/write_impl.hpp:14-30", "docs/streams.md"]}
{"id": "C73", "title": "Writing is injective and normalising", "statement": "Two structs written to the same bytes have the same emitted content; writing the emitted struct again is the same sequence of writes. Refuted for fields declared narrower than their values.", "quantifier": "every schema meeting the guards of the round trip, every pair of structs", "why_tests_cant": "Each claim relates all pairs of runs, schemas, messages or stream states; a test fixes one of each.", "anchors": ["include/cast/stream_cast_impl.hpp", "include/field_write/field_writer.hpp"]}
{"id": "C74", "title": "Floating-point numbers mean what IEEE 754 says", "statement": "The bit pattern of a float or double stands for (-1)^s 2^(e-bias) 1.m, with subnormals, infinities and NaNs; numbers other than NaN are totally ordered, NaN compares with nothing; equal numbers have the same pattern, or are the two zeros; non-negative patterns are ordered as their numbers.", "quantifier": "every bit pattern of both formats", "why_tests_cant": "2^64 patterns, and pairs of them.", "anchors": ["include/field_validation/field_value_constraints.hpp", "include/field_read/field_reader.hpp"]}
{"id": "C75", "title": "Constraints on floating-point fields", "statement": "A comparison or any_of on a floating-point field never admits NaN; an array of numbers read under eq has the literal's bits but for the signs of zeros. Refuted: that a message accepted under eq is written back unchanged (-0.0 for 0.0), and that a pinned array that is written can be read (NaN).", "quantifier": "every schema, position, constraint, literal and byte sequence", "why_tests_cant": "All bit patterns, among them NaNs with any payload; the refuted corners are single patterns.", "anchors": ["include/field_validation/field_value_constraints.hpp", "include/field_write/field_writer.hpp:44-52"]}
{"id": "C76", "title": "Type deduction guides", "statement": "type_deduction_like holds of the three documented guides (switch on a field, switch on a computation, ladder) and of the placeholder only; template specialisations over type<...> never tie; variance takes exactly those guides whose alternatives have distinct types and whose match values differ as size_t, with the alternatives in the order written; the dependencies and discriminants registered are the fields the guide consults; accepted integer guides are the unions of the model. Refuted: that the concept suffices, and that different match values are always told apart.", "quantifier": "every type that can be written with the library's templates, every size_t width, every assignment of type ids", "why_tests_cant": "A rejected program cannot be run, and the claim is about every nesting of templates.", "anchors": ["include/type_deduction/type/type_deduction_traits.hpp", "include/type_deduction/type/type_deduction_metafunctions.hpp", "include/type_deduction/switch/switch_traits.hpp", "include/type_deduction/if_else_ladder/ladder_traits.hpp", "include/api/field_descriptors.hpp:94-103", "include/field_list/field_list_metadata.hpp:150-270"]}
{"id": "C77", "title": "Names do not matter", "statement": "Renaming the fields of a schema one-to-one, each list of fields on its own, together with every reference to them (lengths, computed lengths, predicates, guides), leaves reading and writing unchanged: same result, same stream afterwards, same requests and calls; only the name in an error is renamed. Refuted: for renamings that merge two names.", "quantifier": "every schema, build, stream, allocator, input or struct, and one-to-one renaming; nested lists renamed independently", "why_tests_cant": "tests fix the names; no test relates two schemas", "anchors": ["include/field_list/field_list_base.hpp", "include/field_list/field_list_metadata.hpp", "include/field_read/field_reader.hpp", "include/field_write/derived_value.hpp"]}
{"id": "C78", "title": "A narrower size_t", "statement": "What a build reads without error, a build with a narrower size_t (and records no larger) reads to the same values and the same rest; what it writes, the narrower one writes with the same calls, provided ceilings, match values and container sizes are values of the narrower size_t. Refuted: the converse (a 32-bit build accepts a 64-bit length the wider one refuses) and, for match values that do not fit, that both put the same discriminant on the wire.", "quantifier": "every schema, pair of builds differing in the width of size_t, input, struct and output stream", "why_tests_cant": "the tests run on one build", "anchors": ["include/field_size/field_size_deduce.hpp", "include/field_read/read_impl.hpp", "include/field_write/derived_value.hpp:65-68", "include/field_read/field_reader.hpp"]}
{"id": "C79", "title": "Ceilings play no part in writing", "statement": "Two schemas that differ only in the ceilings of their containers and in the sizes of their record types, on builds that differ only in the default ceiling, are written by the same program: same checks, same calls, same outcome on every stream. A read, too, is the same under every default ceiling if all containers declare their own.", "quantifier": "every schema, struct, pair of ceilings and stream", "why_tests_cant": "a test can only show one ceiling being ignored", "anchors": ["include/field_write/field_writer.hpp:75-178", "include/field_size/field_size.hpp", "docs/reading.md"]}
{"id": "C80", "title": "Exactly which write calls are made", "statement": "A successful write makes exactly these calls, in this order, on every stream: one per fixed-size scalar or string (its declared bytes); an array in one call in host order and one call per leaf in foreign order; a container in one call in host order, even if empty, one per element on a constexpr stream, one per leaf in foreign order; records field by field; nothing for an absent optional. A write that fails made the first of them. Together the calls carry the encoding.", "quantifier": "every schema, struct, build, wire order, kind of stream and stream behaviour", "why_tests_cant": "all streams that count or limit calls; tests look at the bytes only", "anchors": ["include/field_write/write_impl.hpp:14-99", "include/field_write/field_writer.hpp:75-285"]}
{"id": "C81", "title": "Exactly which requests a read makes", "statement": "A successful read made exactly these requests, in this order, for every stream and allocator: one read of the declared size per fixed-size field; for a container one resize to count times element size, then one read of that many bytes, or one read per element on a constexpr stream; for a vector of records one resize, then the records. The products do not wrap. The list is determined by the schema and the struct returned.", "quantifier": "every schema, stream, allocator and run that succeeds", "why_tests_cant": "all streams and allocators; tests do not observe requests", "anchors": ["include/field_read/read_impl.hpp:29-94", "include/field_read/field_reader.hpp:21-166"]}
{"id": "C82", "title": "Exceptions and stateful callables that answer like functions", "statement": "Let streams, allocator and user code (callables, predicates, user-written constraints) throw and keep state, but let every answer user code gives be the one its function gives. Then a cast that does not throw has the same result and the same dealings with stream and allocator as if user code were functions; a cast that throws did the first part of them. A cast throws if and only if one of the calls it made threw, and that was its last call.", "quantifier": "every schema, environment with arbitrary state, and run", "why_tests_cant": "all environments and all points at which an exception can occur; tests have neither", "anchors": ["include/field_compute/computation_from_fields_impl.hpp:52-63", "include/cast/struct_cast_impl.hpp:21-50", "include/cast/stream_cast_impl.hpp:20-49", "include/field_write/derived_value.hpp:170-205"]}
{"id": "C83", "title": "Reading, whatever user code answers", "statement": "Even if callables, predicates and user-written constraints answer arbitrarily and differently each time, a successful read returns a struct of the schema's types in which each length, presence and alternative is the one just answered, each call saw the values of the fields already read, each is made once and in order (a ladder stops at its first true), every constraint was answered true or holds, and every ceiling is respected. Schemas without bool and fixed_string constraints never reach undefined behaviour.", "quantifier": "every accepted schema, every environment whose reads deliver what was asked, every run", "why_tests_cant": "all behaviours of user code; tests use pure lambdas", "anchors": ["include/field_read/field_reader.hpp:21-316", "include/type_deduction/if_else_ladder/ladder_impl.hpp:19-63", "include/cast/struct_cast_impl.hpp:38-44"]}
{"id": "C84", "title": "Writing, whatever user code answers", "statement": "User code can stop a write but not change what is written: whatever it answers, the write calls made are the first of the list fixed by schema and struct, and all of them on success.", "quantifier": "every accepted schema, struct of its types, environment and run", "why_tests_cant": "all behaviours of user code; tests use pure lambdas", "anchors": ["include/field_write/field_writer.hpp:75-285", "include/field_write/derived_value.hpp:170-306"]}
{"id": "C85", "title": "Programs that make structs with operator[]", "statement": "A fresh struct has no bit set in its fixed-size slots, empty containers, disengaged optionals and first alternatives. Whatever a program makes of fresh structs and of structs it read, by assigning fields through operator[] where it hands out a mutable reference (records within structs likewise), has values of the schema's types, and slots the writer overwrites keep their initial value. If callables read assignable fields only, nothing is lost: every struct that can be written, and every message of a reversible schema, can be written from a struct made so. Change one field of a struct, write it and read it back: that field has the new value and every other assignable field the old one.", "quantifier": "every accepted schema, message, struct and sequence of assignments", "why_tests_cant": "all schemas, and all programs over the public interface; tests assign a handful of structs", "anchors": ["include/field_list/field_list.hpp:14-105", "include/field_list/field_list_metadata.hpp:300-350", "include/field_write/derived_value.hpp:206-306", "docs/writing.md:85-190", "include/field/field.hpp:29"]}
{"id": "C86", "title": "Everything a write asks, in order", "statement": "A write that succeeds makes a fixed sequence of calls to user code and to the stream, in which only the answers are open: field by field, the constraint first (on the counted value if the field is a length or a discriminant, not at all if it is pinned), then for a value counted by optional containers one call of the predicate of each engaged one, none skipped because of an earlier verdict, then the questions of the encoding (length, predicate, ladder up to the first branch that holds), then the write calls. Conversely every sequence of that shape is the record of a write that succeeds.", "quantifier": "every accepted schema, struct and environment, including user code that throws, keeps state or answers arbitrarily", "why_tests_cant": "all interleavings of user code and stream, all answers; tests use pure lambdas", "anchors": ["include/field_write/field_writer.hpp:23-92", "include/field_write/derived_value.hpp:170-205", "include/cast/stream_cast_impl.hpp:20-49", "include/type_deduction/if_else_ladder/ladder_impl.hpp:19-63"]}
{"id": "C87", "title": "Everything a read asks and is given", "statement": "A read that succeeds has been given exactly the bytes of the struct it returns, in order, whatever user code answered: no byte is skipped, read twice or taken beyond the struct. A struct comes out of some read exactly if its fixed parts fit their declared widths and its lengths, predicates, branches and checks are explained by what was asked and answered, in order; any such exchange on a stream that begins with the bytes of the struct returns it and leaves the rest of the stream.", "quantifier": "every accepted schema, struct, exchange and environment, including user code that throws, keeps state or answers arbitrarily", "why_tests_cant": "all answers of user code at all depths; tests use pure lambdas on fixed buffers", "anchors": ["include/field_read/field_reader.hpp:20-319", "include/field_read/read_impl.hpp:10-146", "include/cast/struct_cast_impl.hpp:21-50", "include/type_deduction/if_else_ladder/ladder_impl.hpp:19-63"]}
{"id": "C88", "title": "Every failure of a read is explained", "statement": "When a read fails, with user code that throws, keeps state or answers arbitrarily, the reported field is the first that could not be obtained or that its constraint refused, the fields before it were obtained and accepted, the reason is the one that applies (short stream, length over the ceiling, no case or branch, constraint), and the exchange with user code and stream up to that point is exactly determined, with the bytes given. Conversely every such exchange ends in that failure. The stream coming short is always and only reported as buffer_exhaustion and nothing is asked afterwards.", "quantifier": "every accepted schema, environment, exchange and failure", "why_tests_cant": "all failures at all depths under all answers; tests use pure lambdas and a few truncated buffers", "anchors": ["include/field_read/field_reader.hpp:20-319", "include/field_read/read_impl.hpp:10-146", "include/cast/struct_cast_impl.hpp:21-50", "include/error/cast_error.hpp:9-51"]}
{"id": "C89", "title": "Every failure of a write is explained", "statement": "When a write fails, with user code that throws, keeps state or answers arbitrarily and a stream that may refuse at any call, the reported field is the first that did not go out, those before it went out, the reason is the one that applies (contradicting or unrepresentable length, refused constraint, optional or variant contradicting the answers, no case or branch, refused write), and the exchange with user code and stream up to that point is exactly determined: all optional containers are asked about a length before it is judged. Conversely every such exchange ends in that failure. A refused write is always and only reported as buffer_exhaustion and nothing is asked afterwards.", "quantifier": "every accepted schema, typed value, environment, exchange and failure", "why_tests_cant": "all failures at all depths under all answers and refusals; tests use pure lambdas and a few short buffers", "anchors": ["include/field_write/field_writer.hpp:16-288", "include/field_write/derived_value.hpp:111-306", "include/cast/stream_cast_impl.hpp:20-49", "include/error/cast_error.hpp:9-51"]}
{"id": "C90", "title": "Exceptions, whatever else user code does", "statement": "A cast left by an exception of user code, stream or allocator has asked exactly one question it got no answer to, as its last, and up to there everything asked, answered and delivered is the beginning of the exchange of a cast that ends by itself, whichever answer the last question is given. Conversely an exception may come at any question of any complete exchange.", "quantifier": "every accepted schema, value, environment (stateful, arbitrary answers) and point of failure", "why_tests_cant": "exceptions are never thrown in the tests", "anchors": ["include/cast/struct_cast_impl.hpp:21-50", "include/cast/stream_cast_impl.hpp:20-49", "include/field_read/field_reader.hpp:20-319", "include/field_write/field_writer.hpp:16-288"]}
{"id": "C91", "title": "meta::type_id and meta::invoke by type", "statement": "A type keeps the id of its first mention for good, a new type gets the next id, and the 1026th type is refused. meta::invoke<Trait>(type_id<T>) is Trait<T>::value or the id of Trait<T>::type, exactly if all types with an id have that member and there is room for the types they are mapped to; in every other case it is refused.", "quantifier": "every sequence of types, every trait, every id", "why_tests_cant": "the test asks two traits about three types; it cannot try all registries", "anchors": ["include/lib/metaprog/mp.hpp:11-76"]}
{"id": "C92", "title": "static_array", "statement": "A static_array of N elements can be made exactly from N initialisers, N at least 1, and then holds them in order: indexing, iteration, size, capacity and empty agree with the list of initialisers.", "quantifier": "every element type, size and initialiser list", "why_tests_cant": "static_array is not tested", "anchors": ["include/lib/containers/static_array.hpp:8-30"]}
{"id": "C93", "title": "Fields put into a record of their own", "statement": "Replacing a run of fields of a struct by one struct-typed field holding them (or flattening such a field) changes neither the bytes, nor the calls of stream and allocator, nor the values: a read gives the same values regrouped, a write of the regrouped values sends the same chunks. An error in one of the fields is reported under the record's name instead of the field's.", "quantifier": "every accepted pair of schemas, value, configuration, input and output stream, allocator", "why_tests_cant": "tests have single nested structs and never compare a struct with its flattened form", "anchors": ["include/field_read/field_reader.hpp:165-200", "include/field_write/field_writer.hpp:100-145", "include/cast/struct_cast_impl.hpp:21-50", "include/cast/stream_cast_impl.hpp:20-49"]}
{"id": "C94", "title": "The single header", "statement": "scripts/amalgam.py terminates on every source tree. Without cyclic includes the single header holds exactly the files the entry file needs, each once, each after those it includes, each with its code, so including it gives file by file the code that including the entry file gives; standard headers come first, sorted, each once. A file on an include cycle is lost, although include guards make such a tree valid.", "quantifier": "every set of files, every include graph, every entry file", "why_tests_cant": "the tests compile one generated header; no test runs the script on other trees, and none has a cycle", "anchors": ["scripts/amalgam.py:13-175", "single_header/s2s.hpp:1-90"]}
{"id": "C95", "title": "A named length or discriminant is the computation it stands for", "statement": "Replacing length-from-field by a computed length that answers with that field, a switch on a field by a switch on a computed value, or a switch by a ladder of equality tests, changes nothing about reading: same outcome, same stream calls, same allocations; the same structs are valid. With everything restated no slot is overwritten for another field's sake, and every valid struct is written as its encoding, whatever the types of lengths and match values.", "quantifier": "every schema, any set of restated lengths and guides at any depth, every delivering stream, allocator and struct", "why_tests_cant": "the tests have a few schemas, none in two forms", "anchors": ["include/field_size/field_size_deduce.hpp:17-38", "include/type_deduction/type/type_impl.hpp:19-46", "include/type_deduction/switch/switch_impl.hpp:12-52", "include/type_deduction/if_else_ladder/ladder_impl.hpp:19-63", "include/field_write/derived_value.hpp:20-69", "include/field_write/field_writer.hpp:86-92"]}
{"id": "C96", "title": "Order comparisons of arrays", "statement": "lt, gt and lte on an array field compare lexicographically, through any nesting: the first place where the numbers differ decides. Arrays of unsigned bytes are thereby compared as big-endian numbers, whatever the byte order of the message. Without NaNs exactly one of less, same and greater holds. any_of accepts exactly the arrays equal to one of its literals. An array that was read under such a constraint is on the right side of the literal.", "quantifier": "every array type, literal and value; every schema, place of the field and message", "why_tests_cant": "tests have no order comparison on an array", "anchors": ["include/field_validation/field_value_constraints.hpp:32-40,74-125", "include/cast/struct_cast_impl.hpp:38-44"]}
{"id": "C97", "title": "The file of the examples", "statement": "With one position shared by reads and writes: a write puts exactly its bytes at the position and touches no other byte of the file; after going back to where it began, a read gives the struct that was emitted and stops where the write stopped; the same for any number of structs. Reading, going back and writing leaves the file as it was. A failed read can be retried with another schema after clear and seekg; without clear a failed file gives and takes nothing. Nothing is promised when the seekg is left out.", "quantifier": "every schema, struct, file, position, number of structs; every behaviour of the library where the standard leaves it open", "why_tests_cant": "tests write one struct at the start of a new file and read it back", "anchors": ["README.md:140-155", "docs/writing.md:55-70", "docs/schema/index.md:55-70", "include/cast/stream_cast_impl.hpp", "include/cast/struct_cast_impl.hpp"]}
{"id": "C98", "title": "Kinds of fields that can be replaced by simpler ones", "statement": "An optional whose condition always holds, a union whose first branch always holds or whose first case always matches, and an array of one record read and write exactly as the field inside them, but for the wrapping of the value; a computed switch reads and writes exactly as the ladder of its comparisons; an optional that is never there reads and writes as if it were left out; a container whose computed length is always n makes the same requests, gives the same values and errors and writes the same chunks as an array of n, and differs only in allocating. Reading holds for every constraint and every stream. Writing does not hold for a pinned alternative (it is checked, not filled in) nor for an optional container with its length in a field (it is verified, not filled in).", "quantifier": "every schema around the field, every predicate/callable that is constant, every stream, allocator, host and wire order, every value", "why_tests_cant": "tests use one kind of field each and never compare two kinds on the same bytes", "anchors": ["include/field_read/field_reader.hpp", "include/field_write/field_writer.hpp", "include/field_write/derived_value.hpp", "docs/schema/optional-and-variant.md"]}
{"id": "C99", "title": "The checks of the documentation", "statement": "check_doc_examples passes exactly if every block that begins at every other unindented fence either repeats, line for line, the region from the first docs-begin to the first docs-end of the existing source named on the line above, or is not bound and has no main( in it; the difference it reports is the first one. check_nav passes exactly if the pages listed below nav: up to the next key are a permutation of the pages on disk. What passes all the same: a program in an indented fence, an empty block bound to a source with its marks in the wrong order, a page whose nav entry is commented out.", "quantifier": "every page, source, set of pages, mkdocs.yml; every line the regular expressions are tried on", "why_tests_cant": "the scripts are run on one tree of pages and have no tests of their own", "anchors": ["scripts/check_doc_examples.py", "scripts/check_nav.py", "docs/mkdocs.yml"]}
{"id": "C100", "title": "The text of the single header", "statement": "amalgam.py ends on every directory; it gives up exactly if the entry file is not named by the absolute path of a file it looked at. Its two expressions match exactly the lines that are an include of a quoted, or of an angled, name and nothing else. The file an include is taken for is the one found by walking the directories. If includes are acyclic, every file needed is looked at and no include runs on to the next line, the header is: the standard headers of the files looked at, sorted, once; then every file needed, once, after the files it includes, with exactly its lines other than includes (blank ones aside), between two comments with its name. The text does not depend on the order in which files are found, nor on where the directory is unless an include leads out of it.", "quantifier": "every directory and place of it, contents of files, entry file, order of discovery", "why_tests_cant": "the script has no tests; it is run on one directory", "anchors": ["scripts/amalgam.py", "CMakeLists.txt:41"]}
{"id": "C101", "title": "Literals of another kind than the field", "statement": "An integer literal compares the whole part of a floating-point field's value; there is none, and the behaviour is undefined, exactly for NaN, the infinities and whole parts the literal's type does not have. Hence lt and gte are right for positive literals, gt and lte for negative ones, eq is a whole interval. A floating-point literal compares the nearest number of its format (ties to even, infinity from 2^128-2^103 or 2^1024-2^970 on); numbers of the format, and whole numbers up to 2^24 or 2^53, are compared exactly; lt and gt never admit a value that is not less or greater, lte and any_of never reject one they should admit. Refuted: that no message causes undefined behaviour (also in a variance), that the comparison is of the field's value, that what is read under eq is written back, that what is written under eq can be read, that gt admits all that is greater.", "quantifier": "every field type, literal, message and number", "why_tests_cant": "All bit patterns of both formats; the rounding boundaries and the undefined conversions are single patterns, and no test mixes kinds.", "anchors": ["include/field/field_options.hpp:40", "include/field_validation/field_value_constraints.hpp", "docs/constraints.md:24-44"]}
{"id": "C102", "title": "Exactly when a cast is undefined", "statement": "A read is undefined exactly when the input starts with valid values of the fields before some field and either gives a bool in that field (at any depth) a byte other than 0 and 1, or makes a constraint that is run have no result: a fixed_string without terminator, or a floating-point number an integral literal's type does not have. A write is undefined exactly when the fields before are in order and such a constraint is run; slots whose value is derived or fixed by eq never are. With C50 and C52 every input and every struct has success, one named fault, or one named cause of undefinedness.", "quantifier": "every schema (strings, bools and floats included), configuration, input and struct", "why_tests_cant": "Undefined outcomes cannot be observed by a test; the set of inputs is infinite and the cause may lie at any depth.", "anchors": ["include/field_read/field_reader.hpp", "include/cast/struct_cast_impl.hpp:21-50", "include/cast/stream_cast_impl.hpp:20-49", "include/lib/containers/fixed_string.hpp"]}
{"id": "C103", "title": "The example program", "statement": "For every content of sample.bin (or none), every allocator, host byte order, signedness of char and default ceiling, examples/hello_s2s.cpp does one of five things: says that it cannot open the file; fails with reason 0 at len (fewer than 8 bytes); fails with reason 4 at text (a length above the ceiling); fails with reason 0 at text (fewer bytes than announced); or prints the length in decimal and exactly the announced bytes and returns 0. Only a refused allocation ends it otherwise. What make_sample.py writes, for any text up to the ceiling, is printed back.", "quantifier": "every file, allocator and machine with a 64-bit size_t; every text for make_sample.py", "why_tests_cant": "The test runs the program on one file of 18 bytes and looks at the exit code only.", "anchors": ["examples/hello_s2s.cpp", "examples/make_sample.py", "include/error/cast_error.hpp:9-25"]}
{"id": "C104", "title": "The reader as it is written", "statement": "The text of the read path, statement by statement - a default-constructed struct whose members are assigned one after the other, a pipeline of results in which every member and every alternative has its turn and is passed over after an error, counted loops that store into elements, bytes that land in an object and are swapped there in place - does exactly what the reader of this model does: the same result, the same requests to the stream and the allocator in the same order, and the same stream afterwards. Swapping an object in place is reading it in the other byte order, and undoes itself.", "quantifier": "every schema, stream that fills the buffer it is given, allocator, byte order of host and wire, at compile time and at run time", "why_tests_cant": "Which statements run after an error, and what a member holds meanwhile, is not visible from the outside; the tests see one host.", "anchors": ["include/cast/struct_cast_impl.hpp:21-50", "include/field_read/field_reader.hpp:21-316", "include/field_read/read_impl.hpp:29-141", "include/stream/byte_order.hpp:14-25", "include/error/cast_error.hpp:32-47"]}
{"id": "C105", "title": "The writer as it is written", "statement": "The text of the write path, statement by statement - pipelines over members and alternatives, loops with a return on error, swapped temporaries - does exactly what the writer of this model does: the same result, the same calls to write with the same bytes, and the same stream afterwards.", "quantifier": "every schema, struct of its type, output stream, byte order of host and wire, at compile time and at run time", "why_tests_cant": "The tests compare the bytes of a few structs on one host; a refused write is tried at a few places.", "anchors": ["include/cast/stream_cast_impl.hpp:20-49", "include/field_write/field_writer.hpp:23-285", "include/field_write/write_impl.hpp:14-99", "include/error/cast_error.hpp:32-47"]}
{"id": "C106", "title": "Floating-point lengths", "statement": "A floating-point field named by len_from_field gives its whole part as the length: the read is the one of the schema whose lengths are spelled as computations, unless the number has no whole part that is a size_t, in which case the behaviour is undefined. Writing derives the number from the container: it goes out if the format has a number that is the element count, which holds up to 2^24 or 2^53 elements, and is refused as validation_failure otherwise; what goes out reads back. Schemas with integer lengths behave as before.", "quantifier": "every schema, stream and allocator for the comparison with computed lengths; every number, container, fields after it and input for reading; every element type, list of elements, byte order and size_t of 1 to 8 bytes for writing", "why_tests_cant": "No test has a floating-point length; there are 2^32 floats and 2^64 doubles.", "anchors": ["include/api/field_descriptors.hpp:64-87", "include/field_size/field_size_deduce.hpp:17-38", "include/field_write/derived_value.hpp:219-306", "include/field_write/field_writer.hpp:23-72"]}
{"id": "C107", "title": "Discriminants and match values that are not both integers", "statement": "A union switched on a floating-point field, or on an integer field with floating-point match values, takes the alternative of the first match value that is equal to the field's value in the type C++ compares them in, and reports type_deduction_failure if there is none. The writer puts out the match value converted to size_t and from there to the field's type, or refuses it with validation_failure if it cannot be converted back; so a written message reads back exactly if the reader chooses its alternative for that number, which holds for a floating-point field whose match values are distinct whole numbers of its format. With integers on both sides nothing is new.", "quantifier": "every field type and width, list of match values, alternatives, constraint, fields after the union, input and byte order; size_t of 1 to 8 bytes; for writing, schemas in which nothing else names the field", "why_tests_cant": "No test switches on a floating-point field or matches against one; there are 2^32 floats and 2^64 doubles.", "anchors": ["include/type_deduction/switch/match_case.hpp:8-13", "include/type_deduction/switch/switch_impl.hpp:12-53", "include/type_deduction/type/type_impl.hpp:29-36", "include/field_write/derived_value.hpp:41-69", "include/field_write/derived_value.hpp:251-306"]}
{"id": "C108", "title": "Optional fields over a base with a constraint", "statement": "A maybe_field over a base with a constraint is read without asking the constraint: reading is that of the same schema without these constraints. Writing asks it of every optional field that is there, at every depth: a write succeeds exactly if it would without the constraints and all of them hold, with the same bytes; otherwise it is validation_failure at the first optional field whose constraint does not hold, after the bytes of the fields before it. So what is written reads back, but what is read need not be writable.", "quantifier": "every schema, at every depth of records, arrays, vectors and unions; every struct, input, stream and allocator; writing: schemas that are well formed and typed apart from these constraints", "why_tests_cant": "The alias the tests use does not admit such a base, so no test has one; a schema can nest them to any depth.", "anchors": ["include/field/field.hpp:32-41", "include/field/field.hpp:68-76", "include/field_read/field_reader.hpp:195-219", "include/field_write/field_writer.hpp:180-206"]}
{"id": "C109", "title": "Names as they are written", "statement": "A name is what is written of it before its first NUL: nothing after that matters to the check of the ids, lookups, references or errors. Where the different names of each list, of those that occur, stay different under any renaming (cutting at the NUL is one), the schema is accepted or not as before, operator[] does what it did, and reading and writing change only the name in an error.", "quantifier": "every schema at every depth, every renaming that keeps the occurring names of each list apart, every name; every input, stream, allocator and struct", "why_tests_cant": "Tests use a few short names without NULs; that only what precedes the NUL counts, everywhere, is a statement about all names.", "anchors": ["include/api/struct_field_list.hpp:17-29", "include/lib/containers/fixed_string.hpp:12-25", "include/field_list/field_list_metadata.hpp:274-305", "include/field_list/field_list.hpp:14-105", "include/field_write/derived_value.hpp:25-106", "include/cast/struct_cast_impl.hpp:30-44", "include/cast/stream_cast_impl.hpp:33-47"]}
{"id": "C110", "title": "A struct as it is declared", "statement": "For every list of ids with descriptors, options and type deduction guides that compiles, the schema it stands for keeps the order and the ids, is accepted (C32) and, with names, no self reference, real sizes and no over-wide magic_number, well formed, so that the theorems about reading and writing are about every declared struct. Exactly those schemas are declared whose fields are integers within their width (or with an eq), arrays and containers of numbers or of arrays of numbers, strings, records and sequences of them, an optional over one of these without a constraint, or a union of alternatives with different types and match values whose discriminant, if a field, is an earlier integer.", "quantifier": "every implementation (sizes, signedness of char, type ids), every list of declarations at every depth, every option pack and guide", "why_tests_cant": "Each program that compiles is one declaration; which of all schemas have a declaration, and that every declaration meets the hypotheses of the other theorems, is about all of them.", "anchors": ["include/api/field_descriptors.hpp:27-103", "include/api/struct_field_list.hpp:14-61", "include/field/field.hpp:15-121", "include/type_deduction/utils/type_tags.hpp:45-171", "include/field/field_options.hpp:35-133", "include/type_deduction/type/type_deduction_metafunctions.hpp:14-122"]}
{"id": "C111", "title": "What each descriptor declares", "statement": "A list of ids with descriptors, options and guides compiles to given fields exactly when a table says so line by line (for each descriptor and type tag: the options it takes, each at most once; the type, bytes, length, bound and constraint of the field; for a guide: its kind, its cases in order, its discriminant's type; for maybe: no constraint and no C array), the ids are distinct, the fields are not too many and use earlier fields. The table is a function, and the order of options within any descriptor, tag or variance has no effect.", "quantifier": "every implementation (sizes, signedness of char, type ids), every list of declarations, every option pack and guide", "why_tests_cant": "A test compiles one declaration; the table is about all combinations of descriptors, options, element types and guides, those that must be refused included.", "anchors": ["include/api/field_descriptors.hpp:27-103", "include/api/struct_field_list.hpp:14-61", "include/field/field_options.hpp:35-133", "include/field/field.hpp:15-121", "include/type_deduction/utils/type_tags.hpp:45-171", "include/type_deduction/type/type_deduction_metafunctions.hpp:14-122"]}
{"id": "C112", "title": "What the copies of a read cost", "statement": "The reader copies what it has read: the struct into the result of its cast (nested casts too), the result of a nested cast into its field, the base of an optional into the optional. These copies change neither the outcome nor the requests made of the stream, except that the allocator may refuse; each asks for a block of the size of one a container was resized to; the total a successful read asks for is given by the value (a container is paid for once, once per copy of the struct, twice more per record it is in, once more in an optional), it is at least twice the memory of the containers, and it is bounded by the schema for every run; with a fixed supply that takes nothing back a message is read exactly when the supply is at least that total.", "quantifier": "every schema, byte order, stream, allocator with any state, and run, completed or not", "why_tests_cant": "Tests run with ample memory, where copies leave no trace.", "anchors": ["include/cast/struct_cast_impl.hpp:49 R(field_list)", "include/field_read/field_reader.hpp:110,161,188,215,251", "include/field_read/read_impl.hpp:81"]}
{"id": "C113", "title": "Reading needs room for two copies", "statement": "Counting memory that is given back, a read that succeeds leaves in use exactly the bytes of the containers of its result, and at its peak has exactly twice that in use, however deeply the containers are nested; the peak of any read is at most twice the bound of C45; in a pool of fixed size a message that can be read is read exactly when the pool holds two copies of it, and fails with bad_alloc otherwise, with the requests made of the stream so far unchanged; a schema without strings, vectors and vectors of records uses no memory at all.", "quantifier": "every schema, byte order, stream, allocator with any state, pool size and run, completed or not", "why_tests_cant": "Tests run with ample memory and do not measure the peak.", "anchors": ["include/cast/struct_cast_impl.hpp:22,49 field_list, R(field_list)", "include/field_read/field_reader.hpp:161,183-188,210-215", "docs/compile-time.md:28-60", "docs/reading.md:133-160"]}
{"id": "C114", "title": "The order in which alternatives are listed", "statement": "Listing the cases (or branches) of a variance and their alternatives in another order changes neither the outcome of any read, nor its calls, nor any write, except that a value is held under its new position, provided at most one case applies at a time; on writing a discriminant field no such proviso is needed. Cases of an accepted switch exclude each other if all match values are values of the discriminant's type, or all of one type. Refuted for accepted switches in general (-1 and 0xFFFFFFFF both equal an unsigned discriminant) and for overlapping branches.", "quantifier": "every schema around the variance, permutation, byte order, stream, allocator and struct", "why_tests_cant": "Tests list each set of cases in one order.", "anchors": ["include/type_deduction/switch/switch_impl.hpp:12-52", "include/type_deduction/if_else_ladder/ladder_impl.hpp:19-63", "include/type_deduction/type/type_deduction_metafunctions.hpp:84-129", "include/field_write/derived_value.hpp:44-69", "include/field_write/field_writer.hpp:253-285"]}
{"id": "C115", "title": "Fields declared in any acceptable order", "statement": "If the fields of a struct can be declared in two orders, the structs that meet the two descriptions are the same but for the order; whatever is read one way is read the other way from the parts of the message in the other order; whatever is written one way is written the other way as the same parts in the other order, lengths and discriminants filled in alike however many containers share them; and a struct is refused in every order or in none. Another order of an accepted list is accepted exactly when every name used is still declared earlier. Stated also for two adjacent runs of fields exchanged. Refuted for the error reported: the field named is the first one at fault.", "quantifier": "every list of fields, permutation of it, byte order, input and struct", "why_tests_cant": "Tests declare the fields of each message in one order.", "anchors": ["include/cast/struct_cast_impl.hpp:20-50", "include/cast/stream_cast_impl.hpp:15-54", "include/field_write/derived_value.hpp:252-300", "include/field_list/field_list_metadata.hpp"]}
{"id": "C116", "title": "A message carried over to the other byte order", "statement": "A struct is written in both byte orders or refused in both with the same error, and the same number of bytes goes out. If no field is declared narrower than its type, one message is the other with each of its numbers back to front, characters staying in place; and what is read in one order can be written in the other (guard as in C04) and is read from there as the same struct. Refuted for narrow fields.", "quantifier": "every schema, struct, message, host byte order, compile-time or run-time cast", "why_tests_cant": "Tests compare the two orders on chosen messages.", "anchors": ["include/field_read/read_impl.hpp", "include/field_write/write_impl.hpp", "include/stream/byte_order.hpp", "include/cast/stream_cast_impl.hpp:15-54"]}
{"id": "C117", "title": "Which schemas are well typed", "statement": "The type checks that instantiating a schema makes hold exactly when each field occurring in it, at whatever depth, takes its length or tag from an integer declared before it in the same struct, has as many cases as alternatives, nests no optional field or union directly, and is constrained by literals its values can be compared with.", "quantifier": "every schema, at every depth", "why_tests_cant": "Tests compile chosen schemas; a schema that does not compile is no test.", "anchors": ["include/field/field.hpp:18-121", "include/field/field_options.hpp:42-45", "include/field_size/field_size_deduce.hpp:17-38", "include/type_deduction/type/type_impl.hpp:15-45", "include/type_deduction/utils/type_tags.hpp:45-117"]}
{"id": "C118", "title": "A message carried in another as bytes", "statement": "A payload read as a byte vector and then as a struct from those bytes gives what reading the struct in its place gives, and the other way round when the length is that of the struct's encoding. The payload stands in the message as it is, in reading and in writing, and damage to it leaves the rest of the message as it was. Refuted without the length: read at once, a payload can take bytes that follow it.", "quantifier": "every schema around and inside the payload, every message, length given by a field or computed, every bound", "why_tests_cant": "Tests read chosen packets in one way.", "anchors": ["include/field_read/field_reader.hpp:38-52", "include/field_read/read_impl.hpp:68-94", "include/field_write/write_impl.hpp:37-51", "include/cast/struct_cast_impl.hpp"]}
{"id": "C119", "title": "Fields added to a message or to a payload", "statement": "Reading a message by the schema it had before fields were added at its end gives the fields known then and leaves the bytes of the others; reading an older message by the newer schema fails at a field that was added unless those can all be empty. In a payload carried as bytes both versions also read the same fields around it. Refuted for a struct in the message itself: the older reader takes an added field for the one that follows.", "quantifier": "every schema, every extension, every message", "why_tests_cant": "Tests have one version of each schema.", "anchors": ["include/cast/struct_cast_impl.hpp", "include/field_read/field_reader.hpp"]}
{"id": "C120", "title": "What a change to one field changes", "statement": "Two structs that differ in one field are written alike, field by field, except for that field and the field that tells its length or its alternative. When no field tells it anything and the writer does not overwrite it, its bytes are replaced in place whatever their number; in particular a message read, changed in one such field and written is the message it was with the bytes of that field replaced.", "quantifier": "every schema, every pair of structs that differ in one field, every message, both byte orders", "why_tests_cant": "Tests compare the bytes of a few structs with expected ones; they do not relate two writes.", "anchors": ["include/field_write/field_writer.hpp", "include/field_write/derived_value.hpp:32-77", "include/cast/stream_cast_impl.hpp"]}
{"id": "C121", "title": "Kinds of messages told apart by a field", "statement": "Two schemas that begin with the same fields and then have a field of the same type under constraints no value meets both: a message read by one is refused by the other with validation_failure at that field, with the stream right after it. Different numbers listed with eq or any_of (in types that have every number of the field) and different magic strings are such constraints. Kinds of which every two are told apart like this can be tried on the same bytes in any order. Refuted for numbers given in a type narrower than the field: one message can be of two kinds.", "quantifier": "every shared prefix, every pair or list of kinds, every message, both byte orders", "why_tests_cant": "Tests read each message by its own schema.", "anchors": ["include/field_validation/field_value_constraints.hpp:42-125", "include/cast/struct_cast_impl.hpp:21-50"]}
{"id": "C122", "title": "Records read or written one by one", "statement": "A message that ends in an array or a vector of records can be read in parts: the fields before it, then as many casts of the record as those fields say, on the same stream. One cast succeeds exactly when the parts do and the number is within the ceiling, with the same values and the stream at the same place. A message that was written ends in what the casts of its records write one after the other.", "quantifier": "every schema that ends in records, every message, every number of records, both byte orders", "why_tests_cant": "Tests read a vector of records by one cast only.", "anchors": ["include/field_read/field_reader.hpp", "include/field_write/field_writer.hpp:130-178", "include/cast/struct_cast_impl.hpp:21-50"]}
{"id": "C123", "title": "A message made of parts", "statement": "Structs that are each valid on their own and share no name are valid as one struct. One cast of the whole does what casts of the parts do one after the other: same values, same error, same reads, same state of the stream, also when the stream or the allocator fails. Writing the whole takes the same steps as writing the parts one after the other. Values fit the whole exactly when they fit each part, and parts written by casts of their own are read back by one cast of the whole.", "quantifier": "every number of parts, every schema for each, every stream, every allocator, every value, both byte orders", "why_tests_cant": "Tests cast one struct per stream.", "anchors": ["include/api/struct_field_list.hpp:28-61", "include/cast/struct_cast_impl.hpp:21-50", "include/cast/stream_cast_impl.hpp"]}
