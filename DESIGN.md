# Formal model of s2s in Rocq (Coq 8.16.1)

s2s is a header-only C++23 library: a schema (`struct_field_list<...>`) drives
`struct_cast_{le,be}` (bytes -> struct) and `stream_cast_{le,be}`
(struct -> bytes).  We model the run-time semantics of those two casts, and the
compile-time checks and tables they rest on, as Gallina functions, and prove the
properties of `properties.jsonl` about that model.

## 1. What is modelled and how

* **Bytes and scalars** (`Bytes.v`, `CTypes.v`, `Floats.v`): bytes are `Z` in `[0,256)`.
  Integral types are (width in bytes, signedness) or `bool`.  Object
  representation in host order, `std::byteswap`, two's complement, implicit
  conversions (`mod 2^n`), usual arithmetic conversions for `==`, `size_t` of 4
  or 8 bytes.  `float` and `double` are bit patterns of IEEE 754 binary32 and
  binary64, with the numbers they stand for (`fdec`), their comparisons, and conversions
  between them and to and from integers.
* **Schemas** (`Schema.v`): a deep embedding.  Constant-size types (scalars,
  nested arrays, fixed strings), containers sized by `len_from_field` or
  `len_from_fields`, records, arrays/vectors of records, `maybe`, `variance`
  (switch on a field, computed switch, ladder), constraints, bounds.  User
  callables and user-written constraints are arbitrary Coq functions.
* **Programs with effects** (`Prog.v`): the library touches the world only
  through `s.read(p,n)`, `s.write(p,n)`, and container resizes.  A cast is
  modelled as a tree of such requests ("interaction tree" without loops, since
  every loop of the library is bounded), run against an arbitrary stream and an
  arbitrary allocator.  Undefined behaviour (`UB`), situations the C++ type
  system excludes (`Stuck`), and exceptions from the allocator (`Throw`) are
  outcomes distinct from every `cast_error`.
* **Reader / writer** (`Read.v`, `Write.v`): function by function from
  `field_read/*`, `field_write/*`, `cast/*`, parametrised by host byte order,
  wire byte order, constexpr / run-time path, `sizeof(size_t)` and
  `S2S_DEFAULT_MAX_BYTES`.
* **User code as environment** (`UserCode.v`): the same casts, with every call of a
  callable, predicate or user-written constraint a request, answered by one stateful
  environment that may throw.
* **Static part** (`Static.v`): `static_vector/set/map`, `sort_ranges`,
  `find_index`, `equal_ranges`, the metadata tables, the dependency check,
  `operator[]` policy, option packs, type ids.
* **Selection** (`Kinds.v`): C++ types as the library classifies them, the field
  class each descriptor and type tag stands for, which specialisation of the
  readers and writers and which overload of the stream accesses matches, which
  casts compile, and the map from field classes to the schemas of `Schema.v`.
* **Guides** (`Guides.v`): the template arguments of `variance` as trees, the traits
  and metafunctions that match on them, and the map to the guides of `Schema.v`.
* **Specification** (`Spec.v`): `valid` (what it means for a value to satisfy a
  schema) and `enc` (its wire encoding), written without reference to the
  reader or the writer.

Every definition cites the file and lines it models; simplifications are stated
there.

## 2. Plan per property

| id | how |
|----|-----|
| C01, C02 | mutual induction on schemas: reader on a byte list = (`valid` and `enc`) in both directions |
| C03 | writer emits `enc` of the emitted struct; validity of the emitted struct under stated side conditions; full statement refuted by witnesses |
| C04 | reader gives `valid`; the writer's checks follow from `valid`; refuted without the side conditions; exact for one message (`C04_exact`) |
| C05, C06 | once and for all for programs (any request tree), lifted to the reader |
| C07, C08 | induction on the field list; vocabulary by induction on schemas |
| C09, C10 | allocation events of the run; arithmetic of `checked_byte_count` with explicit wrap |
| C11 | from C01's invariant, stated separately |
| C12 | arithmetic of conversions; refuted for mixed types, proved exactly when the field type's values are representable (`C12_exact`) |
| C13, C14 | byte arithmetic, program equivalence by induction on schemas |
| C15 | refuted for big endian and for unfitting values; proved for little endian fitting values |
| C16-C19, C25-C27 | case analysis of the writer, folds over the field list; the conditions of C16, C17 and C19 are exact (`PropsGuard.v`) |
| C20 | relational induction; refuted when a callable consults a derived or frozen slot, proved otherwise |
| C21, C22 | direct |
| C23 | refuted for records; proved for lists without record-typed fields |
| C24 | once and for all for write programs |
| C28, C29 | program simulation |
| C30, C42 | progress-style induction; refuted for unchecked `magic_number` width, `fixed_string` comparison, `bool`, integer literals on floats (C101); the guard is exact for one constant-size field (`C30_exact`) |
| C31, C38, C39, C43 | lists, induction; type ids: invariant of the binary search |
| C32 | equivalence of the table-based check with an order on positions; self reference and the padding entry refute the strict reading |
| C33, C34 | decision tables, permutations |
| C35-C37 | induction on schemas / program composition |
| C40 | arithmetic; refuted for 32-bit `size_t`, proved otherwise |
| C41 | list lemma; refuted (UB) without terminator |
| C44 | modular arithmetic; refuted for mixed signs |
| C45, C46 | induction on schemas with the events of arbitrary runs |
| C47, C51 | composition of C01-C03 with the stream simulations |
| C48 | invariant of the binary search; refuted for overlapping ranges |
| C49 | lists, induction |
| C53, C55, C56, C58 | case analysis and induction on types; exact conditions, refuted without them |
| C54, C57, C59 | descriptors by cases; uniqueness of ids carried over to types; C33's table for the discriminant |
| C60 | the exact outcome of C52 refined by a stopping position, same induction |
| C61-C66 | descriptors and types by cases; lists by induction |
| C67, C68 | induction on pairs of schemas over the exact outcome of C52 |
| C69, C70, C73 | induction on values; locality of `valid`; C03 |
| C71, C72 | events of arbitrary runs with C46 and C08 |
| C74, C75 | arithmetic of bit patterns; C01 and induction on arrays; refuted for signed zeros and NaN literals |
| C76 | case analysis of template patterns; exact conditions; the concept alone is refuted |
| C77 | relation between schemas by rules, one renaming per scope; equality of programs up to the name in errors |
| C78 | simulation between the two builds; converse and large match values refuted |
| C79 | equality of the write programs by induction on the schema pair |
| C80 | the program follows a list of calls computed from the emitted struct; induction as for C02 |
| C81 | postcondition on the requests of every run of the program; induction on the schema |
| C82 | simulation between programs with and without user code as requests; replay of the answers |
| C83, C84 | postcondition over all answers; induction on the schema as for C01 and C80 |
| C85 | every struct agrees on the assignable slots with one made from a fresh struct; C20, C03, C04, C33 |
| C86 | answers under which a program ends, compositional in bind; induction on the schema |
| C87 | answers and bytes under which a program ends; `load_overlay_iff`, `elems_iff`; induction on the schema |
| C88 | answers and bytes under which a program fails, on top of C87; induction on the schema |
| C89 | answers under which a program fails, on top of C86; induction on the schema |
| C90 | the run up to the question again, then any answer; C86-C89 for the rest |
| C91 | induction on the table; C39 for every single id |
| C92 | induction on the initialisers |
| C93 | a block of fields cannot tell contexts apart that agree on its names; laws of bind |
| C94 | invariants of depth-first search; reduction by induction on a rank of the files; refuted for cycles |
| C95 | equality of programs on delivered bytes, along the typing invariant of C42; validity by C01 and C02 |
| C96 | comparison of nested arrays = comparison of the flattened numbers, by induction on the type |
| C97 | runs on the file = runs on the bytes from the position on, by induction on the program, for any behaviour in the undefined cases |
| C98 | the field's own program is the same; the context lemmas of C93 carry it to the whole struct |
| C99 | regular expressions as functions equal to their declarative meaning; the two loops over a page by simultaneous induction on its lines |
| C100 | `re.sub` as a function on texts, related to the lines of the text by an invariant of where a match may begin; the graph of C94 instantiated with what is read from the files; names by walking directories = names by text |
| C101 | rounding by the quotient and remainder at the unit of the number's binade; every number of the format is a multiple of that unit or lies below the binade |
| C102 | the induction of C52 and C50 with `UB` for `Err`; a `bool` in an array is found by its offset |
| C103 | `main` of the example as a function of the file; the cast is evaluated symbolically on the file stream of C97 |
| C104 | a second transcription of the read path that keeps its statements; a simulation between its states and the programs of the model, by mutual induction on the schema |
| C105 | the same for the write path |
| C106 | the reader and the writer once more, with lengths that may be floating-point; programs that differ only where one of them is cut short; the conversion to `size_t` and back is exact iff the count is a number of the format |
| C107 | the reader takes a switch as a ladder of comparisons, the writer as match values of type `size_t`; both are compared with the schema whose union always takes the one alternative |
| C108 | the writer's program is that of the schema without these constraints, unless a check of a payload stops it |
| C109 | a renaming that keeps finitely many names apart extends to a one-to-one one (swaps), then C77; acceptance by its exact description (C32) |
| C110 | C54, C55 and C76 composed over a list; conversely a descriptor, options and a guide for every field of the description |
| C111 | an option pack is a permutation of at most one of each; then each descriptor, tag and guide both ways, and lists by induction |
| C112 | a relation between a program and the same program with copies, which carries the blocks resized so far and the bytes copied so far; induction on schemas |
| C113 | the same relation with three counters: resized, in use, most in use |
| C114 | one field exchanged for another (as for C98), here with a discriminant that is filled in |
| C115 | reads from C01 and C02; writes field by field, with the producers of a length compared up to order |
| C116 | the two encodings compared number by number, with C01, C02, C04 and C03_write_encodes |
| C117 | mutual induction over the schema; each local check matched with its reading |
| C118 | validity judged without the payload field, with C01, C02 and C50 |
| C119 | C01 and C02 on the two schemas, with C37_damage and C118 |
| C120 | C50 on the two structs: a field outside `told_by` has the same claims in both |
| C121 | both reads run the same program up to the constraint of the field; C119_older gives what is left there |
| C122 | C01 and C02 on the message, its first fields and the records (C47); C50 for writing |
| C123 | both sides are programs of the model; C01 and C50 say what they do |
| C50, C52 | each check of the writer and the reader against the declarative condition, by mutual induction |

## 3. Trusted base

* The Coq 8.16.1 kernel (with its VM: `vm_compute` closes the concrete examples
  and the witnesses of the refutations).
* `Print Assumptions` stands beneath every theorem of the `Props*.v` files and
  answers **"Closed under the global context"** for each of them.  No axiom is
  added, and no axiom of the standard library is used.  Loading `Lia`/`ssr`
  support brings `Coq.ssr.ssrunder.Under_rel.*` (seven parameters of an abstract
  module of the standard library) into the environment; no theorem depends on
  them.
* That the model is the code.  The C++ was read, not run.  Each definition of a
  model file cites the lines it stands for; section 4 says what stands for
  nothing.  The modelling decisions that carry weight:
  - the library touches its environment through `read`, `write` and `resize`
    only, so a cast is a tree of such requests (`Prog.v`);
  - user callables and user-written constraints are total, deterministic
    functions of the values they are given, and do not throw.  `UserCode.v` drops
    this: there they, the stream and the allocator are one environment with state
    that may throw.  C82 carries results over, C83 and C84 say what is left if user
    code answers arbitrarily;
  - the stream's health is tested after each access and decides between going
    on and failing (`read_impl.hpp:39,57`, `write_impl.hpp:18,26`);
  - reading a `bool` whose byte is neither 0 nor 1, reading past an object, and
    looking for a terminator past the end of a `fixed_string` are undefined
    behaviour, a distinct outcome from which nothing is concluded;
  - `Stuck` marks what the C++ type checker rejects.  `Typing.v` says which
    schemas it accepts; C42 shows that `Stuck` does not occur for them.
* The specification: `Spec.v`, `WSpec.v`, `WExact.v`, `RExact.v`, `RUndef.v`, `WUndef.v`, `RStop.v`, `StaticSpec.v`, `MoreSpec.v`, `KindSpec.v`, `OptionSpec.v`, `FloatSpec.v`, `GuideSpec.v`, `EquivSpec.v`, `CallSpec.v`, `UserSpec.v`, `BuildSpec.v`, `UserLogSpec.v`, `UserFailSpec.v`, `UserHaltSpec.v`, `UserThrowSpec.v`, `MetaSpec.v`, `GroupSpec.v`, `AmalgamSpec.v`, `RestateSpec.v`, `ArrSpec.v`, `FileSpec.v`, `DegenSpec.v`, `DocSpec.v`, `AmalgamTextSpec.v`, `HelloSpec.v`, `FloatLenSpec.v`, `FloatDiscSpec.v`, `MaybeBaseSpec.v`, `NamesSpec.v`, `DeclareSpec.v`, `TableSpec.v`, `CopySpec.v`, `LiveSpec.v`, `CaseSpec.v`, `OrderSpec.v`, `RelaySpec.v`, `TypedSpec.v`, `PayloadSpec.v`, `EditSpec.v`, `DispatchSpec.v`, `OneByOneSpec.v`, `SplitSpec.v`, `Laws.v`,
  `Typing.v`, `PropDefs.v`, `MoreDefs.v`.  Theorems are only as meaningful as these definitions.  They do
  not mention the reader, the writer or the tables, except `PropDefs.v` and
  `MoreDefs.v`, which name the casts in order to talk about running them.  They do share with the
  model the description of C++ integers in `CTypes.v` (ranges, conversions, `==`
  on mixed types); C44 states what those mean without referring to them.  They
  share `fdec` and `fround` of `Floats.v`; C74 and C101 state what they mean.

* Evidence that the model is the code: `ConformanceHeader.v` runs the model of
  `amalgam.py` on the texts of all files below `include/` and gets the text of
  `single_header/s2s.hpp`, byte for byte; `ConformanceDocTools.v` runs the models of the checks of the
  documentation on the documentation (`DocText.v`), which passes; `ConformanceAmalgam.v` runs the model of
  `amalgam.py` on the repository's includes and gets the 59 files of
  `single_header/s2s.hpp` in their order.  `Conformance.v`, `ConformanceDocs.v` (the
  programs of the documentation) and `ConformanceStatic.v`
  transcribe the project's own tests (test/schema, test/internals, the examples of
  the documentation) and evaluate them in the model with the outcome the test
  expects.  These are tests of the model, not proofs.

## 4. What is modelled and what is not

| code (include/) | model |
|---|---|
| api/struct_cast.hpp, cast/struct_cast_impl.hpp, field_read/* | `Read.v` |
| api/stream_cast.hpp, cast/stream_cast_impl.hpp, field_write/*, lib/memory/address_manip.hpp | `Write.v` |
| stream/byte_order.hpp | `Bytes.v`, `CTypes.v`, `Read.v` |
| field_size/* | `Read.v` (deduction, ceilings), `Static.v` (classification) |
| field_compute/computation_from_fields_impl.hpp | `Read.v`, `Write.v` (a callable applied to looked-up values) |
| the casts with user code that throws or keeps state | `UserCode.v` |
| type_deduction/*, field_compute/computation_from_fields_traits.hpp | `Read.v` (switch, ladder), `Static.v` (uniqueness of cases), `Guides.v` (traits, extraction) |
| field_validation/field_value_constraints.hpp | `Constraint.v`; ranges: `Ranges.v`; order of arrays: `ArrCmp.v`; classes: `Options.v` |
| error/cast_error.hpp | `Prog.v` |
| field/field.hpp, field/field_traits.hpp, api/field_descriptors.hpp | `Schema.v` (field kinds), `Static.v` (descriptors), `Kinds.v` (with their C++ types) |
| field/field_options.hpp, type_deduction/utils/type_tags.hpp | `Static.v`, `Kinds.v` |
| lib/s2s_traits/type_traits.hpp, stream/stream_traits.hpp | `Kinds.v` |
| field_list/*, api/struct_field_list.hpp | `Schema.v` (values by name), `Static.v` (tables, checks, `operator[]`) |
| lib/containers/static_{vector,set,map}.hpp, lib/algorithms/algorithms.hpp | `Static.v` |
| ../scripts/amalgam.py | `Amalgam.v` (the graph), `AmalgamText.v` (the texts, expressions and paths) |
| lib/metaprog/mp.hpp | `Static.v` (search for an id), `Meta.v` (`type_id`, `type_of`, `invoke` of a trait) |
| lib/containers/static_array.hpp | `Meta.v` |
| lib/containers/static_optional.hpp, lib/metaprog/typelist.hpp, lib/metaprog/fixed_string_list.hpp | `Options.v` (elsewhere Coq lists stand for these lists; C65 shows they are) |
| lib/containers/fixed_string.hpp | `Constraint.v` (`==`, `!=`) |
| docs/streams.md `byte_stream`, test/utils/constexpr_memstream.hpp, docs/compile-time.md `memstream`, `std::stringstream` (as the standard describes it) | `Streams.v` |
| `std::fstream` of README.md and docs (as the standard describes it; buffering, opening and disk errors not modelled) | `FileStream.v` |
| `examples/hello_s2s.cpp`, `examples/make_sample.py` (with any text) | `Hello.v` |
| `cast/`, `field_read/`, `field_write/`, `stream/byte_order.hpp`, `error/cast_error.hpp` once more, statement by statement (slots assigned in place, pipelines, loops, bytes swapped in memory) | `Pipeline.v`, `WPipeline.v` |
| `field_size_deduce.hpp`, `derived_value.hpp` `derive_value`, `field_writer.hpp` `verify_then_write`, where the length is a floating-point field | `FloatLen.v` |
| `match_case.hpp`, `switch_impl.hpp`, `derived_value.hpp` `discriminant_obligation`, where field and match values are not both integers | `FloatDisc.v` |
| `field.hpp` `maybe_field`, and the parts of `field_reader.hpp` and `field_writer.hpp` for optional fields, where the base has a constraint | `MaybeBase.v` |
| `struct_field_list.hpp` `as_sv`, and every use of it | `Names.v` |
| a whole `struct_field_list` from its descriptors, options and guides | `Declare.v` |
| the copies made by `struct_cast_impl.hpp` and `field_reader.hpp`, and the end of their originals | `Copies.v`, `Live.v` |
| scripts/check_doc_examples.py, scripts/check_nav.py | `DocTools.v` |

Not modelled:

* of floating point: `long double`; a number handed to arithmetic.  (As a length or a
  discriminant: C106 and C107, apart from the other properties, whose schemas have integers there.)
  Conversions are taken to round to nearest (C101), and copying a NaN to keep its
  bits.  Foreign order is rejected by `std::byteswap` (C56);
* `sizeof(record)`, which is ABI dependent: an arbitrary positive number;
* the identity of C++ types within schemas.  That the alternatives of a variance
  have distinct types is checked by the library through type ids; C57 and C76 cover
  the check and C110 what it means for declared structs, but `accepted` does not include it;
* what becomes of a struct that an exception leaves half filled (it is a local of the
  cast, so nobody sees it); user code that reaches into the struct being cast;
* constant evaluation itself: the constexpr path is the same code with
  element-wise requests (`c_cx`), not the rules of constant expressions;
* computed discriminants that are not integers: `Guides.v` says which guides are accepted
  (C76).  A computed switch is a ladder of its comparisons (C98), and the predicates of a
  ladder are arbitrary, so what is proved of ladders holds of switches on other types too.
  Fields and match values that are not integers: C107;
* `lib/memory/bit.hpp` (commented out);
* `meta::invoke` with a callable of one's own: only its use with a trait;
* of `scripts/amalgam.py`: symbolic links, unreadable files, characters other than single
  bytes, Python's recursion limit.  (The functions for its expressions were also run
  against Python's `re` on 300000 random texts, outside this repository, with the same
  results.);
* `single_header/s2s.hpp` as a program.  It is what the model of `amalgam.py` writes for
  `include/`, character by character (`ConformanceHeader.v`, on the texts in
  `SourceText.v`); `static_array.hpp` and `bit.hpp` (unused) are not in it.

## 5. Findings

Each was found by failing to prove a property as first stated.  "Refuted" names
the property whose unrestricted form has a proved counterexample.

1. *Narrow scalars* (C15, C16, C27).  A scalar declared narrower than its type is
   written and read from the first byte of the object.  In little endian that
   keeps the low-order bytes; in big endian the high-order ones, so
   `basic_field<"x", u32, 2_B>` holding 5 goes out as `00 00` and reads back
   as 0.  Values that do not fit are cut silently; negative ones are not
   sign-extended.  A narrow big-endian length field does not carry the length.
2. *Slots the user cannot assign can matter* (C03, C20 refuted).  A callable that
   reads a derived or pinned field sees the stale slot during a write and the
   wire value during a read.
3. *A failed write may leave part of the failing field* (C23 refuted).  For a
   record field the inner fields before the failing one are already out; docs
   promise "nothing of `k`".
4. *Lengths that are only verified are not checked against the declared width*
   (C27 refuted): a length used only inside a `maybe` or an alternative can be cut.
5. *Match values of mixed types* (C17, C04 refuted).  Cases are told apart as
   `size_t` but selected with the built-in `==`, so `match_case<-1, ...>` on a
   `u32` or 64-bit discriminants can be written and read as another alternative.
6. *`eq` compares in the literal's type* (C12, C04 refuted): `eq{7}` on a `u64`
   accepts 2^32 + 7, which a write then replaces by 7.
7. *`magic_number` does not check its width* (C19, C30): a declared size above
   `sizeof(T)` overruns the object; a literal outside the type can never be read
   back.
8. *`fixed_string` comparison looks for a NUL* (C41, C30 refuted): bytes without a
   terminator make `magic_string` read past the object, a wire-triggered
   undefined behaviour.
9. *A write does not check the ceiling* (C03, C79): a container above `max_bytes` is
   written and cannot be read back.
10. *The dependency check is not strict* (C32, C38, C33 refuted): a field may name
    itself; the empty name resolves to the padding entry of the table; a field
    named `""` is overwritten by the padding and its dependencies go unchecked.
11. `static_optional == static_nullopt_t{}` is inverted (static_optional.hpp:38-42; C65
   refuted); by our reading the constant `s2s::nullopt` can be neither compared with nor
   converted, since the constructors at 18 and 19 are equally good.  Unused.
12. `maybe` over a container with an explicit `max_bytes` does not compile (C63 refuted).
13. *32-bit `size_t`* (C40 refuted): a 64-bit length field is reduced modulo 2^32.
14. *`bool`* (C30 refuted; see also 42): a wire byte other than 0 and 1 is undefined behaviour.
15. With `S2S_DEFAULT_MAX_BYTES = SIZE_MAX`, a hostile length reaches `resize`,
    which may throw (the `Throw` outcome).
16. *Reference streams* (C29): `byte_stream::read` adds position and size without
    a wrap check; `memstream` over an empty buffer reads out of bounds.
17. *Capacities* (C33, C39): 64 length-prefixed fields, 64 discriminated fields,
    256 fields, 1025 type ids; beyond, the code is ill formed.
18. An empty `struct_field_list<>` is rejected.
19. docs/writing.md says a *verified* length that does not fit is rejected with
    `validation_failure`; see 4.
20. *A field cannot be both a length and a discriminant* (C59 refuted).  A switch
    reads its discriminant with the const `operator[]`, which does not exist for
    length targets: such a list is accepted, can be written, and does not compile
    when read.  The comment at field_list_metadata.hpp:307-309 expects it to work.
21. *Descriptors admit elements without a reader* (C54 refuted): `fixed_array_field`
    of `fixed_string` or C arrays, `c_arr_field` of `std::array`, `vec_field` of
    anything.  The error shows only when a cast instantiates the reader.
22. *Casts that do not compile* (C56 refuted): floating-point numbers in foreign
    order, `vec_field<bool>`, nested C arrays read at compile time.
23. *A stream that is both a constexpr stream and readable* (C58 refuted) makes the
    stream access ambiguous.
24. `with_fields` lists cannot be handed to `parse_if` / `compute`, which take names,
    so their normalisation is unreachable; `is_in_open_range` compares the types of
    its bounds only.
25. *`gte` of a `fixed_string`* (C64 refuted) is in the table of docs/constraints.md,
    but `fixed_string` has no ordering, so it never compiles.  `lte` is an
    unconstrained template: `lte<fixed_string>` passes the descriptor and fails
    inside the cast.
26. *`eq` of an array of floats* (C64 refuted) is accepted although the same page
    excludes floats from `eq` outright.
27. *Outdated comments in the tests*: union_write_ct.cpp:131-145 and
    union_alternative_options_write.cpp say that a length named only by a union
    alternative cannot be assigned.  The code derives such lengths only for plain
    fields, and the tests beside these comments assign it.
28. *Casting an empty vector on a failed stream* (C72): in foreign order nothing is
    written, so the failed stream is not noticed and the cast succeeds; in host order
    the same cast reports `buffer_exhaustion`.
29. *`eq` of an array of floats compares numbers* (C75 refuted): -0.0 is accepted
    where the schema says 0.0, and a write puts 0.0 back: the message changes.
30. *An array literal with a NaN* (C75 refuted) is written without complaint and
    never accepted by the reader.
31. `is_type_deduction<no_type_deduction>` is true (C76 refuted): the concept lets the
    placeholder through, and the failure shows later, as a missing member.
32. *Match values are told apart as `size_t`* (C76 refuted): 1.0 and 1.5 count as
    duplicates; so do 64-bit values equal modulo 2^32 where `size_t` has 32 bits; a
    `fixed_string` as match value does not compile.
33. *A schema means different bytes on 32-bit and 64-bit builds* (C78 refuted): a
    discriminant is derived from the match value cast to `size_t`, so a 64-bit signed
    discriminant with match value -1 is written as -1 by one build and as 4294967295 by
    the other, which cannot read it back.  In the other direction a 32-bit build drops
    the upper half of a 64-bit length and accepts a message the 64-bit build refuses.
34. *The predicate of an optional container is called twice in a write* (C84 refuted):
    once for the length it verifies and once for the container.  A predicate that
    changes its mind in between gets a container written under a length that does not
    count its elements; the message cannot be read back.
35. *Messages no program can write* (C85 refuted): if a predicate reads a length field,
    it sees the stored slot when writing, and on a fresh struct no program can change
    that slot.  A message whose optional is present for the real length can be read but
    not produced, except by reading it first.
36. `meta::invoke<Trait>` builds its table over all types that have an id and the lambda
    in it has no constraint, so a trait that lacks the member for one of them, say
    `std::underlying_type` once `type_id<int>` has been mentioned, does not compile for
    any (C91_only, C91_case).  Whether it does depends on what was mentioned before.
    The library itself does not use it.
37. *`amalgam.py` loses files on include cycles* (C94 refuted): the removal of redundant
    includes drops every include of a file that includes itself by way of others, so
    such a file, and what only it includes, is missing from the single header, without
    a warning.  The repository has no cycle now; dev/inbox/todos.md mentions some.
38. *"`as_vec_of_records` cannot be written"* (docs/schema/optional-and-variant.md:160;
    C85_records_refuted): the page says that the length of a vector of records in a
    union is neither derived nor assignable.  As in 27 it is assignable, and a struct
    made with operator[] alone is written and read back.
39. *"Setting it to `SIZE_MAX` disables the defaults entirely"* (docs/reading.md:176; C10):
    for elements of more than one byte a length whose byte count does not fit a `size_t`
    is still refused with `excessive_length` (as it has to be).
40. *Gaps in the checks of the documentation* (C99).  A program in an indented fence is not
   seen; marks in the wrong order give an empty region; an entry of the navigation that
   is commented out (`  # - Errors: errors.md`) counts as listed, though the page is then
   unreachable, which is what check_nav is there to find.  The documentation as it is
   has none of these.
41. *What `amalgam.py` loses besides cycles* (C100).  `[^"]+` and `\s*` match line ends, so
   an `#include "` without its closing quote on the same line takes the code up to the
   next quote with it (C100_run_on_refuted).  A file whose name does not end in .h, .hpp,
   .c or .cpp is put in when it is included, but what it includes, also standard headers,
   is dropped (C100_ending_refuted).  An include with a comment behind it stays an include
   and its file is not put in (C100_comment_refuted).  The entry file has to be given by
   its absolute path (C100_entry), as CMakeLists.txt does.  The repository has none of
   the first three.  An include that leads out of the directory and back in by its name
   makes the header depend on where the checkout is (C100_moved_refuted); otherwise it does
   not (C100_moved), which test/shipped_header/check_deterministic.cmake tests for one place.
42. *Integers against floating-point fields* (C101).  docs/constraints.md:40-42 has `eq` and
   `neq` exclude floating-point types, but only the literal's type is asked about: `eq(1)`,
   `lt(100)` and the others with an integer compile on an alternative
   `as_trivial<float, 4_B, ...>` of a variance and on a `field` of `float`s (`basic_field`
   takes integers only).  The value is
   then converted to the literal's type before it is compared: `gte(0)` admits -0.5,
   `lte(100)` admits 100.5, `gt(0)` rejects 0.5 (C101_fraction_refuted); 1.5 is read under
   `eq(1)` and written as 1 (C101_eq_refuted); the field of `eq(16777217)` is written as
   16777216, which is then rejected (C101_pinned_refuted).  For NaN, the infinities and
   numbers that do not fit the conversion is undefined, so four bytes of a message are
   enough (C101_undefined_refuted, C101_variance_refuted).  Where the literal is the floating-point one, the value
   is rounded first: `gt(9007199254740992.0)` rejects 2^53 + 1 (C101_float_refuted).
43. *Floating-point lengths* (C106).  `len_from_field<"n">` asks that n is a field of fixed
   size, not that it is an integer, so a `field` of `float`s is accepted as a length.  The
   conversion to `std::size_t` is undefined for NaN, the infinities, numbers up to -1 and
   from 2^64: four bytes of a message are enough (C106_undefined_refuted), and a struct
   that holds a NaN if the container is optional (C106_write_undefined_refuted).  2.5 is
   read as a length of 2 and written back as 2 (C106_fraction_refuted).  A container of
   2^24 + 1 elements cannot be written, the `float` after 2^24 being 2^24 + 2
   (C106_large_refuted).
44. *Floating-point discriminants and match values* (C107).  `match_case` takes a value of
   any type.  The reader compares it with the field, the writer converts it to
   `std::size_t` first: a message read for 1.5 goes out with 1, which is then
   `type_deduction_failure` (C107_fraction_refuted), an integer field matched against 1.5
   can be written but never read (C107_integer_refuted), and writing a `double` matched
   against -1 is undefined (C107_undefined_refuted).  For a `float`, 16777217 and 16777216
   are the same match value, but not for the check that they are distinct: messages of one
   are read as the other (C107_rounded_refuted).  -0 goes out as 0 (C107_zero_refuted).
45. *Optional fields over a base with a constraint* (C108).  The `maybe` alias does not
   admit one (C54), `maybe_field` does.  The writer asks the constraint of what is there,
   the reader does not, although the comment at field_reader.hpp:248 has it that
   `maybe_field` solves this "the same way" as a union: a message can be read whose struct
   is then `validation_failure` (C108_refuted; dev/design/struct-to-stream-write.md says so).
46. *Names end at a NUL* (C109_refuted).  `as_sv` makes a `string_view` from a pointer, so
   `"n\0x"` and `"n\0y"` are one name: two such fields are refused, and a length that
   names one is given by the other.  (A `fixed_string` made from an array without a NUL has
   no end at all; in a constant expression that does not compile, and it is not modelled.)
47. *Everything read is copied* (C112_twice, C112_paid).  `struct_cast_impl` copies the
   struct into its result (`R(field_list)`, struct_cast_impl.hpp:49, where a move would do), a nested cast
   once more into its field (field_reader.hpp:188), an optional's base once more (215).  A container
   at the top is allocated twice, one in a record inside a record six times.  The
   ceilings bound each block, not the total: C112_bound does.  At any one time no more than two copies
   are alive (C113).
48. *Distinct match values can match together* (C114_order_refuted).  The values are compared
   with each other as `size_t`, but with the discriminant by `==`: `match_case<-1, ...>` and
   `match_case<0xFFFFFFFFu, ...>` on a `u32` are accepted, and the first one listed is
   taken for both.  Exchanging them changes what a message means.
49. *Kinds pinned to different numbers can overlap* (C121_numbers_refuted).  `eq{7}` holds an
   `int`, to which a `u64` field is converted, so a message whose field is 2^32 + 7 is accepted
   by `eq{7}` and by `eq{4294967303ull}`: which of two schemas it belongs to depends on the order
   in which they are tried.  A literal of the field's own type, or a wider one, is safe.

## 6. What the documentation claims, and where it is proved

Read page by page; a claim about all inputs that the documentation makes and that is
missing here was not found.

| docs/ | claim | property, or finding |
|---|---|---|
| compile-time.md, index.md | the same schema is cast at compile time and at run time | C13, C28, C56 |
| compile-time.md | what fixed-size fields read owns no memory; the rest is transient or owned by the result | C113 |
| compile-time.md | the parser is one reader per field, chosen by its type | C53, C54, C55, C104 |
| constraints.md | which constraints there are and what they mean | C11, C12, C48, C64, C75, C96, C101 |
| constraints.md | range constraints | C48, findings |
| constraints.md | magic descriptors are constraints | C19, C41, C61 |
| errors.md | which error, when | C06, C08, C10, C25-C27, C50, C52, C88, C89 |
| errors.md | `failed_at` names a field of the top level | C07, C23 |
| reading.md | what a read returns | C01, C02, C05, C52 |
| reading.md | what a failed read leaves behind | C07, C60 |
| reading.md | ceilings, checked before allocating; the default | C09, C10, C45, C46, C62, C78, C112 |
| reference.md | limitations | C38, C43, C49, C63, findings |
| schema/index.md | four axes, options in any order | C34, C54, C61, C111 |
| schema/index.md | `fixed_string` | C30, C41, findings |
| schema/size-axis.md | sizes and ceilings; invertible sizes | C16, C25, C27, C62, C79, C95 |
| schema/computed-values.md | computed values see earlier fields | C32, C59, C86, C87 |
| schema/optional-and-variant.md | `maybe` consumes nothing if absent | C21, C63, C98, C108 |
| schema/optional-and-variant.md | first match; a write agrees | C17, C22, C57, C66, C76, C107 |
| schema/optional-and-variant.md | constraints and ceilings of alternatives and of the variant | C11, C66, C67 |
| streams.md | what a stream must provide | C29, C58, C72 |
| streams.md | the reference implementation | C51, C97 |
| struct.md | `operator[]`, names | C31, C33, C38, C85, C109 |
| writing.md | derived and frozen fields are read-only, and filled in | C16, C17, C19, C20, C33 |
| writing.md | what is checked at write time | C18, C25, C26, C27, C50, C89 |
| writing.md | write-once, fail-fast | C23, C24, C80, C105 |
| writing.md | what is written reads back | C03, C04, C73 |

## 7. What the specifications ask for, and where it is proved

The goals of `dev/specs` and `dev/design` in /repo.  `compile-time-test-tier` and
`documentation-restructure` concern the tests and the documentation only.

| document | goal | property |
|---|---|---|
| struct-to-stream-write | one entry point per byte order, at compile time and at run time | C13, C28, C58 |
| struct-to-stream-write | every kind of field reads back | C03, C04, C55 |
| struct-to-stream-write | lengths and discriminants are derived and read-only | C16, C17, C20, C33 |
| struct-to-stream-write | containers that share a length must agree | C18 |
| struct-to-stream-write | computed lengths, presence and ladders are verified | C21, C22, C25, C26, C50, C89 |
| struct-to-stream-write | a length must fit its field | C27 |
| struct-to-stream-write | constraints hold on write; frozen fields | C19, C50 |
| struct-to-stream-write | left to right, fail-fast, partial output allowed | C23, C24, C80, C86 |
| struct-to-stream-write | which error | C08, C50, C89 |
| union-alternatives | a tag takes an option pack, in any order | C66, C111 |
| union-alternatives | constraint and ceiling of an alternative | C09-C11, C67 |
| union-alternatives | a bound on what does not allocate is refused | C62, C111 |
| union-alternatives | constraint on the variant | C11, C54 |
| schema-api-verbosity | options in any order, sizes by default | C34, C54, C111 |
| schema-api-verbosity | an option that does not apply is refused | C54, C62, C111 |
| schema-api-verbosity | derived fields have no `operator[]` | C33 |
| unbounded-resize | ceiling checked before allocation; N accepted, N+1 rejected | C09, C10, C45, C112 |
| unbounded-resize | byte counts do not wrap | C45, C78 |
