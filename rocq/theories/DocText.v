(** * The texts of README.md, docs/ and test/doc_examples/ of the repository, as they stand

    Data for ConformanceDocTools.v. *)
From Coq Require Export String Ascii List.
Export ListNotations.
Local Open Scope string_scope.

Definition t00 := "
# s2s
A declarative binary parser aka serde to convert a stream into meta-struct which has a map like 
interface, and back again.

Implemented as an embedded DSL powered by C++23 TMP.

**The parser is generated at compile time.** The schema is declared as a type
and the template machinery turns it into straight-line read and write code —
no runtime dispatch over the field list, no reflection, no format interpreter.
This is unconditional. It holds when the stream is a plain `std::ifstream` and
when the schema is full of `std::string` and `std::vector`, and it comes with
using the library at all.

**Parsing can additionally be performed at compile time.** This is the narrower
claim, and it has two conditions: the stream must be usable during constant
evaluation, and the parsed value must not carry heap memory out of it. When both
hold, the whole parse — validation included — happens in the compiler and the
result is a `constexpr` value. When they do not, everything in the paragraph
above still holds.

Library is single header and the file ""s2s.hpp"" from the single_header
folder can be used for direct inclusion into a project

## Features
* Single header
* Parser generated at compile time, unconditionally; parsing itself performed at
  compile time when the stream and schema allow it
* Support for 
    * Trivial
    * Array of trivials 
    * Array of records 
    * Length prefixed vector of trivials
    * Length prefixed vector of records
    * Const sized strings
    * Length prefixed strings
    * Optionals
    * Unions
    * Magic strings
    * Magic numbers
* Writing a struct back to a stream with the same schema, in either byte order
* Lengths and union discriminants derived on write, so they cannot drift from
  the data they describe — a length is not part of the struct's interface at
  all, and a discriminant is read-only
* Validation of fields in place while reading and while writing
* A per-field ceiling on what a wire-supplied length may allocate, on by
  default, so a corrupt stream cannot ask for gigabytes
* Compile time endianness handling 
* Pluggable interfaces working with custom streams

## Requirements
s2s currently has a constraint on minimum version of the std to be C++23

The compiler version requirements are 
* gcc 13.1 : x86-64, arm, arm64 gcc 13.1 — runtime use only. Constexpr use of
  `struct_field_list` needs gcc 14 or newer; gcc 13 rejects the `static
  constexpr` metadata tables with ""accessing value of 'key' through a glvalue
  in a constant expression"".
* clang 19.1.0 : x86-64, armv8-a
* msvc v19.39, VS 17.9 : x64, x86, arm64


## Taste of the API
<!-- docs: test/doc_examples/readme_read_example.cpp -->
```cpp
#include ""s2s.hpp""

#include <array>
#include <fstream>
#include <print>
#include <vector>

using namespace s2s_literals;

using u8 = unsigned char;
using u16 = unsigned short;
using u32 = unsigned int;

// A firmware image: a two-byte marker, a version, and a payload whose length
// is carried on the wire just before it.
using firmware_image =
  s2s::struct_field_list<
    s2s::magic_byte_array<""marker"", 2, std::array<u8, 2>{0x46, 0x57}>,
    s2s::basic_field<""version"", u16, 2_B>,
    s2s::basic_field<""payload_length"", u32, 4_B>,
    s2s::vec_field<""payload"", u8, s2s::len_from_field<""payload_length"">>
  >;

auto main() -> int {
  std::ifstream image(""firmware.bin"", std::ios::in | std::ios::binary);

  const auto res =
    s2s::struct_cast_be<firmware_image>(image)
      .transform([](const firmware_image& fields){
        std::println(""version={} payload={} bytes"",
                     fields[""version""_f], fields[""payload""_f].size());
        return fields;
      }).transform_error([](const s2s::cast_error& err){
        std::println(""failure_reason={} failed_at={}"",
                     static_cast<int>(err.failure_reason), err.failed_at);
        return err;
      });

  return res.has_value() ? 0 : 1;
}
```

The same schema drives the other direction. Fields the schema can work out for
itself — here `payload_length` — are derived during the write rather than being
data anyone has to keep in sync, which is why the schema names it and the
struct does not expose it:

<!-- docs: test/doc_examples/readme_roundtrip_example.cpp -->
```cpp
#include ""s2s.hpp""

#include <array>
#include <fstream>
#include <vector>

using namespace s2s_literals;

using u8 = unsigned char;
using u16 = unsigned short;
using u32 = unsigned int;

// One schema, both directions.
using firmware_image =
  s2s::struct_field_list<
    s2s::magic_byte_array<""marker"", 2, std::array<u8, 2>{0x46, 0x57}>,
    s2s::basic_field<""version"", u16, 2_B>,
    s2s::basic_field<""payload_length"", u32, 4_B>,
    s2s::vec_field<""payload"", u8, s2s::len_from_field<""payload_length"">>
  >;

auto main() -> int {
  firmware_image image{};
  image[""version""_f] = u16{1};
  image[""payload""_f] = std::vector<u8>{0xde, 0xad, 0xbe, 0xef};
  // ""payload_length"" cannot be named at all. It is derived from payload.size().

  std::fstream file(""firmware_out.bin"",
                    std::ios::in | std::ios::out | std::ios::binary | std::ios::trunc);

  // Each step returns an expected, so writing and reading back chain into one
  // expression; a failure at either end carries its cast_error through.
  const auto round_tripped =
    s2s::stream_cast_be<firmware_image>(file, image)
      .and_then([&file] {
        // A file stream shares one position between reads and writes.
        file.seekg(0);
        return s2s::struct_cast_be<firmware_image>(file);
      })
      .transform([](const firmware_image& parsed) {
        return parsed[""payload""_f].size() == 4;
      });

  return round_tripped.value_or(false) ? 0 : 1;
}
```

## Documentation
The full guide lives in [`docs/`](docs/index.md) and is published as a site
built with mkdocs-material: the schema language and its four axes, the
constraint DSL, both directions in depth, writing a custom stream, and what
""compile time"" does and does not mean here.

### Reading it locally

Everything needed to render the guide lives in `docs/`, so both commands name
the config there:

```sh
pip install -r docs/requirements.txt

mkdocs serve -f docs/mkdocs.yml   # live-reloading site on http://127.0.0.1:8000
mkdocs build -f docs/mkdocs.yml   # or render once into site/
```

`mkdocs serve` watches the pages and reloads on every edit. They are plain
markdown with relative links, so they also read fine straight from
[`docs/`](docs/index.md) on GitHub — building is only needed for the rendered
site.

## Building and running the tests

Configure and build. gcc 14 or newer is required — `CMakeLists.txt` fails
configure below it rather than letting the failure surface later as a template
error:

```sh
cmake -S . -B build -DCMAKE_CXX_COMPILER=g++-14
cmake --build build -j$(nproc)
ctest --test-dir build -j$(nproc)
```

GoogleTest and qlibs/ut are both fetched at configure time, so the first
configure needs network access. Nothing else is vendored.

A single suite, or everything matching a name:

```sh
ctest --test-dir build -R union            # every union entry, both frameworks
ctest --test-dir build -R '_ct_'           # the compile-time tier only
ctest --test-dir build --output-on-failure # show output from what failed
```

The test tree is named for what each directory verifies:

| Directory | Verifies |
|---|---|
| `test/schema/` | one schema construct per file pair — the descriptor table in [`docs/schema/`](docs/schema/index.md) |
| `test/internals/` | traits, containers and field-list metadata |
| `test/must_not_compile/` | programs that must fail to compile |
| `test/doc_examples/` | every program shown in the docs compiles, runs, and matches its fenced block |
| `test/shipped_header/` | the amalgamated header stands alone and regenerates byte-identically |
| `examples/` | standalone programs a consumer could copy, built and run |

Tests come in two forms. `<feature>_read.cpp` and `<feature>_write.cpp` are
GoogleTest and run at run time. `<feature>_read_ct.cpp` and `<feature>_write_ct.cpp`
are [qlibs/ut](https://github.com/qlibs/ut) and run **both** at compile time and
at run time, from the same source — which is how the compile-time parsing claim
above is checked rather than asserted. Each ut source produces three CTest
entries:

| Entry | What it does |
|---|---|
| `<name>_compile_time` | drives `cmake --build`; the assertions are spent during compilation, so a failure is a build failure |
| `<name>_run_time` | runs the same tests at run time, printing actual values — the one build that still links when a compile-time expectation fails |
| `<name>_coverage` | fails unless *every* test also ran at compile time; ut skips a capturing lambda silently, and this is what notices |

Entries under `test/must_not_compile/` are expected to fail to build, and
`ctest` reports them green when they do.

## Roadmap
- [x] Trivials
- [x] Arrays and vectors
- [x] Strings
- [x] Optionals
- [x] Unions
- [ ] Bitfields
- [ ] Read-Until Delimiter[s]
- [x] Support for all major compilers
- [ ] Full Support in Freestanding Compilers
- [x] Compile-time Endianness Handling
- [ ] Run-time Endianness Handling
- [ ] Modules
- [x] Write struct to stream
- [ ] struct_view - Zero copy views into buffers
- [ ] Asynchronous Read-Write
- [ ] Support for seeking
- [ ] Compile time functions for struct_field_list - 
    - [ ] Query fields
    - [ ] Extend with another list
    - [ ] Alignment and Padding Control
".
Definition t01 := "# Compile time

s2s makes two different claims about compile time. They are often run together
into ""it's constexpr"", which is what makes the second one look like a
precondition for using the library at all. It is not.

## The parser is generated at compile time

This one is unconditional. A schema is a type, and the code that walks it is
produced by instantiating templates over that type. There is no field-list
object to iterate at run time, no table of function pointers, no format
interpreter, and no branch on ""what kind of field is this"" — the traversal is
laid out by the compiler and what remains is the field-by-field work itself.

This comes with using the library at all. It holds with a plain `std::ifstream`,
with a schema full of `std::string` and `std::vector`, on gcc 13, in a debug
build. Nothing below is required for it.

## Parsing can be performed at compile time

This one is narrower and has two conditions, both of which must hold.

**The stream must be usable during constant evaluation.** In practice that means
a type deriving from `s2s::constexpr_stream`, working on `std::array` rather
than raw pointers — see [Constexpr streams](streams.md#constexpr-streams). A
`std::ifstream` cannot be one; there are no files during constant evaluation.

**The result must not carry heap memory out of the constant evaluation.** This
is a narrower restriction than ""no allocating fields"", and the difference
matters. Every descriptor parses at compile time, allocating ones included:
`str_field`, `vec_field`, `vector_of_records` and a `variance` with an
`as_string` or `as_vec` alternative are all covered by compile-time tests. An
allocation made and released inside one constant evaluation is transient, and
transient allocation is allowed.

What is not allowed is a result that still owns heap memory when the evaluation
ends. So this fails:

```cpp
constexpr auto result = parse();   // holds a std::string
static_assert(result);             // error: the value of 'result'
                                   // is not usable in a constant expression
```

while the same parse inside a function that returns something non-allocating
succeeds:

```cpp
constexpr auto parses_cleanly() -> bool {
  auto result = parse();           // the std::string lives and dies in here
  return result && (*result)[""str""_f] == ""abc"";
}
static_assert(parses_cleanly());   // fine
```

The fixed-size counterparts — `fixed_string_field` and `c_str_field` for
strings, `fixed_array_field` and `c_arr_field` for arrays, `array_of_records`
for records — are the ones whose results *can* escape, so a parsed value can be
held in a namespace-scope `constexpr` variable and asserted on directly. That
is what they exist for.

When both conditions hold, the whole parse happens in the compiler — including
constraint checking, presence deduction and type deduction.

<!-- docs: test/doc_examples/guide_constexpr_example.cpp -->
```cpp
#include ""s2s.hpp""

#include <array>
#include <cstddef>

using namespace s2s_literals;

using u8 = unsigned char;
using u32 = unsigned int;

// A constexpr stream is identified by deriving from s2s::constexpr_stream, and
// works on std::array rather than char* so it is usable in constant evaluation.
template <std::size_t N>
class memstream: s2s::constexpr_stream {
  std::array<u8, N>& buffer;
  std::size_t read_idx{0};
  bool ok{true};

public:
  constexpr explicit memstream(std::array<u8, N>& b): buffer(b) {}

  template <std::size_t dest_size>
  [[nodiscard]] constexpr auto read(std::array<char, dest_size>& dest,
                                    std::size_t size_to_read) -> memstream& {
    for(std::size_t i = 0; i < size_to_read; ++i) {
      if(read_idx >= N) {
        ok = false;
        return *this;
      }
      dest[i] = static_cast<char>(buffer[read_idx++]);
    }
    return *this;
  }

  [[nodiscard]] explicit constexpr operator bool() const { return ok; }
};

// A fixed-layout partition entry. Nothing here allocates, so the parsed value
// can be held in a constexpr variable and asserted on below.
using partition_entry =
  s2s::struct_field_list<
    s2s::basic_field<""start_lba"", u32, 4_B>,
    s2s::basic_field<""sector_count"", u32, 4_B>
  >;

constexpr auto parse_it() -> std::expected<partition_entry, s2s::cast_error> {
  std::array<u8, 8> buffer{0xde, 0xad, 0xbe, 0xef, 0xca, 0xfe, 0xd0, 0x0d};
  memstream<8> stream(buffer);
  return s2s::struct_cast_be<partition_entry>(stream);
}

// The parse, the validation and the field lookups all happen in the compiler.
constexpr auto result = parse_it();
static_assert(result);
static_assert((*result)[""start_lba""_f] == 0xdeadbeef);
static_assert((*result)[""sector_count""_f] == 0xcafed00d);

auto main() -> int {
  return 0;
}
```

Note what the `static_assert`s establish: not merely that the values are right,
but that they were available to the compiler. A failure here is a compile error,
not a test failure.

## Compiler support for the constexpr path

The compile-time parse needs a newer compiler than the rest of the library.

| Compiler | Runtime use | Constexpr `struct_field_list` |
|---|---|---|
| gcc 13.1 | yes | **no** |
| gcc 14+ | yes | yes |
| clang 19.1.0 | yes | yes |
| msvc v19.39 (VS 17.9) | yes | yes |

gcc 13 rejects the `static constexpr` metadata tables with *""accessing value of
'key' through a glvalue in a constant expression""*. `CMakeLists.txt` fails
configure below gcc 14 rather than letting the failure surface later as an
inscrutable template error.
".
Definition t02 := "# Constraints and validation

The `constraint` axis narrows which values a field may hold. It is the last
parameter of every descriptor that takes one, and it defaults to
`no_constraint`, so leaving it off means ""any value the type can represent"".

A constraint is checked in **both** directions:

- **reading** — after the bytes are decoded, before the value is stored;
- **writing** — before the field's first byte reaches the stream.

A violation is `validation_failure` either way, with `failed_at` naming the
field. That symmetry is the point: a schema that refuses to parse a bad value
also refuses to produce one.

A union takes two more, and they are separate things: one in the type tag of an
alternative, constraining that alternative's payload, and one on the `variance`
itself, constraining the resolved `std::variant`. See
[Optional and variant fields](schema/optional-and-variant.md).

## The constructs

| Constraint | Holds when | Value type |
|---|---|---|
| `no_constraint<T>{}` | always | any |
| `eq{v}` | `value == v` | equality-comparable, non-floating-point |
| `neq{v}` | `value != v` | equality-comparable, non-floating-point |
| `lt{v}` | `value < v` | comparable |
| `gt{v}` | `value > v` | comparable |
| `lte{v}` | `value <= v` | comparable |
| `gte{v}` | `value >= v` | integral or `fixed_string` |
| `any_of{a, b, ...}` | `value` is one of the listed values | all arguments the same type |

They are used as values, not types, and CTAD deduces the parameter:

```cpp
s2s::basic_field<""channels"", u16, 2_B, s2s::any_of{u16{1}, u16{2}}>
```

Two type restrictions are worth knowing before a template error explains them.
`eq` and `neq` exclude floating-point types outright — equality on a float
decoded from a wire format is a trap, so the library refuses it rather than
supporting it badly. `gte` is narrower still, admitting only integrals and
`fixed_string`.

## Range constraints do not currently compile

`range`, `is_in_open_range` and `is_in_closed_range` are present in the headers
and are **not usable**. `range`'s constructor applies `static_assert` to its own
function parameters, which are not constant expressions, so constructing one is
a hard compile error — and both range constraints take `range` arguments.

```cpp
constexpr s2s::range<int> r{1, 5};   // error: 'value1' is not a constant expression
```

See `dev/issues/026-range-constraints-do-not-compile.md`. Until that is fixed, a
bounded field is best expressed with `gte`/`lte`, or with `any_of` for a small
set. These three will join the table above once they work.

## The magic descriptors are constraints

`magic_string`, `magic_number` and `magic_byte_array` are not a separate
validation mechanism. Each is an ordinary descriptor whose constraint axis is
already filled in with `eq`:

```cpp
magic_string<""magic"", ""S2S"">
// is
field<""magic"", fixed_string<3>, 4_B, eq{fixed_string<3>(""S2S"")}>
```

which is why they take an `expected` value where other descriptors take a
constraint, and why a wrong magic value coming off the wire reports
`validation_failure` like any other constraint breach rather than an error of
its own.

Because they are `eq`, they are also
[frozen on write](writing.md#fields-frozen-by-a-constraint-are-read-only-too):
the value is supplied from the constraint rather than by the caller, and the
field takes no assignment. The same applies to a hand-spelled `eq` on any
fixed-size field — `eq` is the only constraint in the table above that names a
single value rather than narrowing a set, which is what makes it the only one
the write path can satisfy on the caller's behalf.

<!-- docs: test/doc_examples/guide_constraints_example.cpp -->
```cpp
#include ""s2s.hpp""

#include <array>
#include <fstream>

using namespace s2s_literals;

using u8 = unsigned char;
using u16 = unsigned short;
using u32 = unsigned int;

// The fmt chunk of a WAV file. Most of what makes a fmt chunk valid is a
// constraint on a single field, so most of it is declared rather than checked.
using wav_format =
  s2s::struct_field_list<
    s2s::magic_byte_array<""chunk_id"", 4, std::array<u8, 4>{0x66, 0x6d, 0x74, 0x20}>,
    s2s::basic_field<""chunk_size"", u32, 4_B, s2s::eq{u32{16}}>,
    s2s::basic_field<""audio_format"", u16, 2_B, s2s::eq{u16{1}}>,
    s2s::basic_field<""channels"", u16, 2_B, s2s::any_of{u16{1}, u16{2}}>,
    s2s::basic_field<""sample_rate"", u32, 4_B, s2s::gte{u32{8000}}>,
    s2s::basic_field<""bits_per_sample"", u16, 2_B, s2s::any_of{u16{8}, u16{16}, u16{24}}>
  >;

// The same layout with the constraint axis left off every field.
using wav_format_unchecked =
  s2s::struct_field_list<
    s2s::magic_byte_array<""chunk_id"", 4, std::array<u8, 4>{0x66, 0x6d, 0x74, 0x20}>,
    s2s::basic_field<""chunk_size"", u32, 4_B>,
    s2s::basic_field<""audio_format"", u16, 2_B>,
    s2s::basic_field<""channels"", u16, 2_B>,
    s2s::basic_field<""sample_rate"", u32, 4_B>,
    s2s::basic_field<""bits_per_sample"", u16, 2_B>
  >;

auto main() -> int {
  // ""chunk_id"", ""chunk_size"" and ""audio_format"" are not assigned. Each is
  // constrained to eq, so the schema already fixes the value and the write
  // path takes it from there.
  wav_format fmt{};
  fmt[""channels""_f] = u16{2};
  fmt[""sample_rate""_f] = 44100u;
  fmt[""bits_per_sample""_f] = u16{16};

  std::fstream file(""wav_format.bin"",
                    std::ios::in | std::ios::out | std::ios::binary | std::ios::trunc);

  const auto accepted =
    s2s::stream_cast_be<wav_format>(file, fmt)
      .and_then([&file] {
        file.seekg(0);
        return s2s::struct_cast_be<wav_format>(file);
      })
      .transform([](const wav_format&) { return true; });

  if(!accepted.value_or(false))
    return 1;

  // Writing: the constraint is checked before the field's first byte is out.
  wav_format surround = fmt;
  surround[""channels""_f] = u16{6};
  std::fstream discard(""wav_format_bad.bin"",
                       std::ios::in | std::ios::out | std::ios::binary | std::ios::trunc);

  const auto refused = s2s::stream_cast_be<wav_format>(discard, surround);
  if(refused.has_value()
     || refused.error().failure_reason != s2s::error_reason::validation_failure
     || refused.error().failed_at != std::string_view{""channels""})
    return 1;

  // Reading: the same constraint rejects the same value coming off the wire.
  // The bytes have to exist first, so they are written through the unchecked
  // layout and parsed back through the checked one.
  wav_format_unchecked loose{};
  loose[""chunk_size""_f] = 16u;
  loose[""audio_format""_f] = u16{1};
  loose[""channels""_f] = u16{6};
  loose[""sample_rate""_f] = 44100u;
  loose[""bits_per_sample""_f] = u16{16};

  std::fstream on_disk(""wav_format_loose.bin"",
                       std::ios::in | std::ios::out | std::ios::binary | std::ios::trunc);

  const auto parsed =
    s2s::stream_cast_be<wav_format_unchecked>(on_disk, loose)
      .and_then([&on_disk] {
        on_disk.seekg(0);
        return s2s::struct_cast_be<wav_format>(on_disk);
      });

  if(parsed.has_value())
    return 1;

  return parsed.error().failure_reason == s2s::error_reason::validation_failure
      && parsed.error().failed_at == std::string_view{""channels""} ? 0 : 1;
}
```
".
Definition t03 := "# Errors

Both directions report failures the same way. `cast_error` carries the reason
and the name of the field it happened at.

```cpp
enum error_reason {
  buffer_exhaustion,
  validation_failure,
  type_deduction_failure,
  found_contradicting_length,
  excessive_length
};

struct cast_error {
  error_reason failure_reason;
  std::string_view failed_at;
};
```

A read can fail in four ways: a field value fails validation, the input stream
is exhausted, type deduction fails while reading into a union, or a
length-prefixed field claims more memory than it is allowed to allocate.

`excessive_length` is the odd one, and the difference matters when reading a
foreign stream. Every other reason is reported *during* a read;
`excessive_length` fires **before** one. `buffer_exhaustion` means the stream
ran dry partway through; `excessive_length` means the length was never
satisfiable and nothing was allocated for it. See
[Allocation limits](reading.md#allocation-limits) for the ceiling it reports
against and how to change it.

A write can fail in the first three ways plus `found_contradicting_length`,
which means two parts of the struct imply different lengths for the same data —
a cross-field disagreement rather than a value that is wrong on its own terms.
`excessive_length` is read-only: a write's container is one the caller already
holds, so nothing is being allocated from an untrusted number.

Which check produces which reason is tabulated per direction:
[Read errors](reading.md#read-errors) and
[What is checked at write time](writing.md#what-is-checked-at-write-time).

## What `failed_at` names

`failed_at` is always a field id that appears in the schema passed to the cast.
For a failure inside a nested record it names the **outermost** record field,
not the inner one — a validation failure two levels down inside
`struct_field<""header"", ...>` reports `""header""`.

That is a deliberate limitation rather than an oversight: `cast_error` carries
one name, so a nesting chain and a cross-field contradiction cannot both be
expressed. The project's development backlog records the design discussion under
""Error ergonomics"", including why a shared-length contradiction names the length
field but not the dependent that disagreed with it.
".
Definition t04 := "# s2s

A declarative binary parser — a serde for binary formats — that converts a
stream into a meta-struct with a map-like interface, and back again.
Implemented as an embedded DSL powered by C++23 template metaprogramming.

## How this guide is organised

The schema is the spine. It is declared once and drives both directions, so it
is documented once:

- **[Schema](schema/index.md)** and **[Constraints](constraints.md)** are the
  shared vocabulary. Nothing in them belongs to reading or to writing.
- **[Reading](reading.md)** and **[Writing](writing.md)** cover only what each
  direction does with that vocabulary.
- **[Streams](streams.md)**, **[Compile time](compile-time.md)** and
  **[Errors](errors.md)** cut across both.
- **[Reference](reference.md)** holds the exact declarations and the known
  limitations.

## The two compile-time claims

s2s makes two claims about compile time, and they are often run together into
""it's constexpr"", which makes the narrower one look like a precondition for
using the library at all. It is not.

**The parser is generated at compile time.** This is unconditional. A schema is
a type, and the traversal over it is produced by instantiating templates — no
runtime dispatch over the field list, no reflection, no format interpreter. It
holds with a plain `std::ifstream` and with a schema full of `std::string` and
`std::vector`.

**Parsing can additionally be performed at compile time.** This is narrower and
carries two conditions: a stream usable during constant evaluation, and a parsed
value that carries no heap memory out of it. [Compile time](compile-time.md)
covers both.

## Getting the library

s2s is header-only. `single_header/s2s.hpp` is the shipped artifact and is the
only file a consumer needs.

## Requirements

C++23 or newer. Compiler support differs between the runtime path and the
compile-time one:

| Compiler | Runtime use | Constexpr `struct_field_list` |
|---|---|---|
| gcc 13.1 | yes | **no** |
| gcc 14+ | yes | yes |
| clang 19.1.0 | yes | yes |
| msvc v19.39 (VS 17.9) | yes | yes |

gcc 13 rejects the `static constexpr` metadata tables with *""accessing value of
'key' through a glvalue in a constant expression""*. `CMakeLists.txt` fails
configure below gcc 14 rather than letting that surface later as a template
error.
".
Definition t05 := "# Reading

```cpp
template <struct_field_list_like T, stream_like S>
auto struct_cast_le(S& stream) -> std::expected<T, cast_error>;

template <struct_field_list_like T, stream_like S>
auto struct_cast_be(S& stream) -> std::expected<T, cast_error>;
```

The schema is the template argument, the stream is the runtime one. The `le` and
`be` suffix fixes the byte order of every integral member of the schema — it is
not a per-field setting. Success yields the populated `struct_field_list`;
failure yields a `cast_error`.

The struct is read strictly left to right, one field at a time, in declaration
order and at every nesting level. That ordering is not an implementation detail
to be ignored: it is why a `len_from_field` must name a field declared *before*
the one it sizes, and why a `parse_if` predicate can only read fields already
parsed.

Which field kinds exist, and how many bytes each consumes, is part of the schema
language rather than of this direction — see the descriptor table in
[Schema](schema/index.md).

## A worked example

<!-- docs: test/doc_examples/guide_reading_example.cpp -->
```cpp
#include ""s2s.hpp""

#include <array>
#include <fstream>

using namespace s2s_literals;

using u8 = unsigned char;
using u32 = unsigned int;

// The 14-byte header every BMP file starts with. BMP is a little-endian
// format, so it is read with struct_cast_le.
using bmp_header =
  s2s::struct_field_list<
    s2s::magic_byte_array<""signature"", 2, std::array<u8, 2>{0x42, 0x4d}>,
    s2s::basic_field<""file_size"", u32, 4_B>,
    s2s::basic_field<""reserved"", u32, 4_B>,
    s2s::basic_field<""pixel_offset"", u32, 4_B>
  >;

// 'B' 'M', then file_size, reserved and pixel_offset, each little-endian.
constexpr unsigned char header_bytes[] = {
  0x42, 0x4d,
  0x36, 0x00, 0x0c, 0x00,
  0x00, 0x00, 0x00, 0x00,
  0x36, 0x00, 0x00, 0x00
};

auto write_sample(const char* path, std::size_t count) -> bool {
  std::ofstream out(path, std::ios::out | std::ios::binary | std::ios::trunc);
  out.write(reinterpret_cast<const char*>(header_bytes),
            static_cast<std::streamsize>(count));
  return static_cast<bool>(out);
}

auto main() -> int {
  if(!write_sample(""sample.bmp"", sizeof(header_bytes)))
    return 1;

  std::ifstream file(""sample.bmp"", std::ios::in | std::ios::binary);

  const auto parsed =
    s2s::struct_cast_le<bmp_header>(file)
      .transform([](const bmp_header& header) {
        return header[""file_size""_f] == 0x000c0036 && header[""pixel_offset""_f] == 54;
      });

  if(!parsed.value_or(false))
    return 1;

  // A file that stops short reports which field ran out, not merely that one did.
  if(!write_sample(""truncated.bmp"", 8))
    return 1;

  std::ifstream short_file(""truncated.bmp"", std::ios::in | std::ios::binary);
  const auto failed = s2s::struct_cast_le<bmp_header>(short_file);
  if(failed.has_value())
    return 1;

  return failed.error().failure_reason == s2s::error_reason::buffer_exhaustion
      && failed.error().failed_at == std::string_view{""reserved""} ? 0 : 1;
}
```

## What a failed read leaves behind

`struct_cast` returns `std::expected`, so a failure gives back a `cast_error`
and no struct — there is no partially populated result to inspect. Whatever had
been parsed up to that point is discarded with the `expected`.

The stream is a different matter. The library does not own it, and on failure
its read position is wherever the failing field stopped, not rewound to where
the cast started. Code that intends to retry, or to try a second schema against
the same bytes, must record the position beforehand. Opening a fresh stream over
the same buffer is usually simpler.

## Read errors

| Cause | `failure_reason` | `failed_at` |
|---|---|---|
| the stream ran out mid-field | `buffer_exhaustion` | the field being read |
| a constraint rejected the decoded value | `validation_failure` | that field |
| a magic value did not match | `validation_failure` | the magic field |
| a constraint on a union alternative rejected its payload | `validation_failure` | the union field |
| a constraint on a `variance` rejected the resolved variant | `validation_failure` | the union field |
| no `match_case` matched and no `branch` predicate held | `type_deduction_failure` | the union field |
| a length exceeded the field's allocation ceiling | `excessive_length` | the container field |

Note the first and last rows are not the same failure. `buffer_exhaustion`
means a read began and the stream ran dry; `excessive_length` means the read
never began, because the length could not be allocated. A truncated file gives
the first, a corrupt length gives the second.

`found_contradicting_length`, the fourth `error_reason`, cannot arise on a read.
It reports two parts of a struct implying different lengths for the same data,
which is only detectable when writing — reading takes the length off the wire
and has nothing to disagree with it. See [Writing](writing.md).

For a failure inside a nested record, `failed_at` names the outermost record
field rather than the inner one. A validation failure two levels down inside
`struct_field<""header"", ...>` reports `""header""`, so the name returned is always
one that appears in the schema handed to `struct_cast`.

## Allocation limits

A length-prefixed field's size comes off the wire, so a corrupt or hostile
stream can claim a length far larger than the data behind it. Reading such a
field naively means allocating for the claim before discovering it was a lie —
a four-byte length can ask for four gigabytes.

**Every variable-sized field is bounded, whether or not the schema says so.**
The default ceiling is 16 MiB of allocated memory per field, and a length
exceeding it fails with `excessive_length` *before* anything is allocated. This
is the one read error that fires ahead of the read rather than during it, which
is the whole point of it: `buffer_exhaustion` tells you the stream ran dry,
`excessive_length` tells you it never had a chance.

Declare a different ceiling per field with `max_bytes`:

```cpp
s2s::vec_field<""payload"", u8, s2s::len_from_field<""n"">, s2s::max_bytes<4096>>
```

It is a trailing option like any other, so it composes with a size and a
constraint in any order. The bound is denominated in **bytes of allocated
memory** — `count * sizeof(element)` — which for `vector_of_records` means the
records' in-memory footprint rather than the bytes they occupy on the wire.
`max_bytes` is inclusive: exactly the limit is accepted.

It applies only where a length off the wire drives an allocation, which is
`vec_field`, `str_field` and `vector_of_records`. A fixed-size field, a
`fixed_array_field` or an `array_of_records` has an extent fixed at compile
time that no stream can influence, and declaring `max_bytes` on one is a
compile error rather than a no-op — silently ignoring it would let you believe
you had bounded something you had not.

### Raising the default

`S2S_DEFAULT_MAX_BYTES` sets the default for every field that declares nothing.
Define it before including the header:

```cpp
#define S2S_DEFAULT_MAX_BYTES (256u * 1024u * 1024u)
#include ""s2s.hpp""
```

Setting it to `SIZE_MAX` disables the defaults entirely. **It cannot disable a
`max_bytes` you declared** — a default is the library's guess and yours to
overrule, but a declared limit is your own intent, and no build setting
discards it.

A container alternative inside a `variance` declares its ceiling the same way,
in its type tag's option pack; see
[optional and variant fields](schema/optional-and-variant.md#bounding-an-alternative).
".
Definition t06 := "# Reference

The descriptor aliases as declared in `include/api/field_descriptors.hpp`. The
[descriptor table](schema/index.md#the-descriptors) is the readable form; this is the exact one.

```cpp
template <fixed_string id, integral T, fixed_size_like size_type, auto constraint_on_value = no_constraint<T>{}>
  requires field_fits_to_underlying_type<size_type, T>
using basic_field = field<id, T, size_type, constraint_on_value>;

template <fixed_string id, field_containable T, std::size_t N, auto constraint_on_value = no_constraint<std::array<T, N>>{}>
using fixed_array_field = field<id, std::array<T, N>, byte_count{N * sizeof(T)}, constraint_of_pack<...>>;

template <fixed_string id, field_list_like T, std::size_t N, auto constraint_on_value = no_constraint<std::array<T, N>>{}>
using array_of_records = field<id, std::array<T, N>, size_dont_care, constraint_on_value>;

template <fixed_string id, std::size_t N, auto constraint_on_value = no_constraint<fixed_string<N>>{}>
using fixed_string_field = field<id, fixed_string<N>, fixed<N + 1>, constraint_on_value>;

template <fixed_string id, field_containable T, std::size_t N, auto constraint_on_value = no_constraint<T[N]>{}>
using c_arr_field = field<id, T[N], byte_count{N * sizeof(T)}, constraint_of_pack<...>>;

template <fixed_string id, std::size_t N, auto constraint_on_value = no_constraint<char[N + 1]>{}>
using c_str_field = field<id, char[N + 1], byte_count{N * sizeof(char) + 1}, constraint_of_pack<...>>;

template <fixed_string id, std::size_t N, auto expected>
using magic_byte_array = field<id, std::array<unsigned char, N>, byte_count{N}, eq{expected}>;

template <fixed_string id, fixed_string expected>
using magic_string = field<id, fixed_string<expected.size()>, fixed<expected.size() + 1>, eq{expected}>;

template <fixed_string id, integral T, fixed_size_like size, auto expected>
using magic_number = field<id, T, size, eq{expected}>;

template <fixed_string id, typename T, variable_size_like size, auto constraint_on_value = no_constraint<std::vector<T>>{}>
using vec_field = field<id, std::vector<T>, size, constraint_on_value>;

template <fixed_string id, field_list_like T, variable_size_like size, auto constraint_on_value = no_constraint<std::vector<T>>{}>
using vector_of_records = field<id, std::vector<T>, size, constraint_on_value>;

template <fixed_string id, variable_size_like size, auto constraint_on_value = no_constraint<std::string>{}>
using str_field = field<id, std::string, size, constraint_on_value>;

template <fixed_string id, field_list_like T>
using struct_field = field<id, T, size_dont_care, no_constraint<T>{}>;

template <no_variance_field_like base_field, typename present_only_if>
  requires is_eval_bool_from_fields_v<present_only_if>
using maybe = maybe_field<base_field, present_only_if>;

template <fixed_string id, type_deduction_like type_deducer,
          constraint_option_like<typename type_deducer::variant> auto... opts>
  requires (has_unique_field_choices(extract_field_choices<type_deducer>::value)) &&
           (has_unique_match_values(extract_match_values<type_deducer>::value))
using variance =
  union_field<id, type_deducer,
              constraint_of_pack<typename type_deducer::variant, opts...>>;
```

## Known limitations

Recorded here because they constrain what a schema can express, not because
they are planned work:

- **Vector lengths are element counts, not byte counts.** A `vec_field`'s size
  axis yields how many elements to read. There is no overload taking a length in
  bytes, so a format that prefixes a byte count for a vector of multi-byte
  elements needs a `len_from_fields` callable to do the division.
- **The vector descriptors are fixed to `std::vector`.** There is no hook for a
  custom container or allocator, so a schema cannot read into a
  `pmr::vector` or a fixed-capacity vector.
- **The string descriptors are fixed to `char`.** `str_field` is `std::string`
  and `fixed_string` holds `char`; wide and UTF-16 character types are not
  supported.
- **`size_choices` cannot be declared** — see
  [The size axis](schema/size-axis.md#size_choices-is-not-currently-declarable).
- **`range`, `is_in_open_range` and `is_in_closed_range` do not compile** — see
  [Constraints](constraints.md#range-constraints-do-not-currently-compile).
".
Definition t07 := "# Computed values

Three different axes need a value worked out from other fields rather than
stated outright: a length the wire does not carry directly, a predicate deciding
whether an optional field is present, a test choosing a union alternative. They
share one shape — a callable, plus the names of the fields it reads.

The names are written as a bare list of ids — `""a"", ""b""` — trailing the
callable. There is no wrapper around them; the order is the order they reach
the callable as arguments.

**`compute<callable, R, ""a"", ""b"">`** is the general form: apply `callable` to
the fields named, producing an `R`. The callable is a non-type template
argument, so it must be usable in a constant expression — a captureless lambda
or a function object declared where the schema can name it.

Everything else in this family is that template under a shorter name.

| Alias | Expands to | Reads as |
|---|---|---|
| `predicate<f, ids...>` | `compute<f, bool, ids...>` | a yes/no test over sibling fields |
| `eval_bool_from_fields<f, ids...>` | `compute<f, bool, ids...>` | the same thing, older spelling |
| `parse_if<f, ids...>` | `eval_bool_from_fields<f, ids...>` | is this optional field present? |
| `eval_size_from_fields<f, ids...>` | `compute<f, std::size_t, ids...>` | a count derived from siblings |

`compute` is documented here as a mechanism to be used directly, not as an
implementation detail behind those aliases. Deriving a `u32` from two sibling
fields is a legitimate thing to write, and the test suite already does it.
**The signature of `compute<callable, R, ids...>` should be treated as stable**:
documenting the general form commits the project to keeping it, not just the
aliases built on top.

One near relative is deliberately absent from that table. `size_from_fields`,
and its alias `len_from_fields`, live on the [size axis](size-axis.md) and take
the identical callable-plus-`with_fields` shape, but they are a separate
template rather than an alias of `compute`. The distinction rarely matters when
writing a schema and matters a great deal when reading a compiler error, which
is why it is called out here.

<!-- docs: test/doc_examples/guide_computed_example.cpp -->
```cpp
#include ""s2s.hpp""

#include <fstream>
#include <vector>

using namespace s2s_literals;

using u16 = unsigned short;

// The callable is a non-type template argument, so it has to be usable in a
// constant expression and named somewhere the schema can reach.
constexpr auto pixel_count = [](auto width, auto height) { return width * height; };

// An image tile. Nothing on the wire states how many pixels follow — the count
// is the product of two fields that are each meaningful on their own.
using image_tile =
  s2s::struct_field_list<
    s2s::basic_field<""width"", u16, 2_B>,
    s2s::basic_field<""height"", u16, 2_B>,
    s2s::vec_field<
      ""pixels"",
      u16,
      s2s::len_from_fields<pixel_count, ""width"", ""height"">
    >
  >;

auto main() -> int {
  image_tile tile{};
  // ""width"" and ""height"" stay assignable: multiplication cannot be run
  // backwards, so they are verified against pixels.size() rather than derived.
  tile[""width""_f] = u16{4};
  tile[""height""_f] = u16{2};
  tile[""pixels""_f] = std::vector<u16>(8, 0x7fff);

  std::fstream file(""image_tile.bin"",
                    std::ios::in | std::ios::out | std::ios::binary | std::ios::trunc);

  const auto round_tripped =
    s2s::stream_cast_be<image_tile>(file, tile)
      .and_then([&file] {
        file.seekg(0);
        return s2s::struct_cast_be<image_tile>(file);
      })
      .transform([](const image_tile& parsed) {
        return parsed[""pixels""_f].size() == 8;
      });

  if(!round_tripped.value_or(false))
    return 1;

  // A tile claiming dimensions its pixel run cannot satisfy is rejected rather
  // than written as a stream that will not read back.
  image_tile inconsistent = tile;
  inconsistent[""height""_f] = u16{3};
  std::fstream discard(""image_tile_bad.bin"",
                       std::ios::in | std::ios::out | std::ios::binary | std::ios::trunc);

  const auto rejected = s2s::stream_cast_be<image_tile>(discard, inconsistent);
  if(rejected.has_value())
    return 1;

  return rejected.error().failure_reason == s2s::error_reason::found_contradicting_length
    ? 0 : 1;
}
```
".
Definition t08 := "# Schema

A schema is a type. It is declared once as a `struct_field_list` of field
descriptors, and that single declaration drives both directions: `struct_cast`
reads a stream into it, `stream_cast` writes it back out.

Nothing in this section belongs to one direction. Field descriptors are the
schema language, not a read-side feature — where the two directions genuinely
differ is in what they *do* with a declaration, and that is covered in
[Reading](../reading.md) and [Writing](../writing.md).

## The four axes

Every field declares up to four things.

| Axis | What it answers | Required |
|---|---|---|
| `id` | what the field is called | always |
| `type` | which C++ type holds the value | always |
| `size` | how many bytes it occupies on the wire | unless the type implies it |
| `constraint` | which values are legal | no — defaults to `no_constraint` |

<!-- docs: test/doc_examples/guide_schema_example.cpp -->
```cpp
#include ""s2s.hpp""

#include <array>
#include <fstream>
#include <vector>

using namespace s2s_literals;

using u8 = unsigned char;
using u16 = unsigned short;
using u32 = unsigned int;

// A telemetry frame: a two-byte marker, the device that sent it, a protocol
// revision, and a run of samples whose count is carried on the wire.
using telemetry_frame =
  s2s::struct_field_list<
    s2s::magic_byte_array<""marker"", 2, std::array<u8, 2>{0xab, 0xcd}>,
    s2s::basic_field<""device_id"", u16, 2_B>,
    s2s::basic_field<""revision"", u8, 1_B, s2s::any_of{u8{1}, u8{2}}>,
    s2s::basic_field<""sample_count"", u32, 4_B>,
    s2s::vec_field<""samples"", u16, s2s::len_from_field<""sample_count"">>
  >;

auto main() -> int {
  telemetry_frame frame{};
  frame[""device_id""_f] = u16{0x2a};
  frame[""revision""_f] = u8{2};
  frame[""samples""_f] = std::vector<u16>{300, 301, 299, 302};
  // ""sample_count"" is not assigned: it is the size axis of ""samples"" resolved.

  std::fstream file(""telemetry_frame.bin"",
                    std::ios::in | std::ios::out | std::ios::binary | std::ios::trunc);

  // Every step yields an expected, so the steps chain instead of nesting. A
  // failure anywhere short-circuits and carries its cast_error to the end.
  const auto round_tripped =
    s2s::stream_cast_be<telemetry_frame>(file, frame)
      .and_then([&file] {
        // A file stream shares one position between reads and writes.
        file.seekg(0);
        return s2s::struct_cast_be<telemetry_frame>(file);
      })
      .transform([](const telemetry_frame& parsed) {
        return parsed[""samples""_f].size() == 4
            && parsed[""device_id""_f] == 0x2a
            && parsed[""samples""_f][2] == 299;
      });

  return round_tripped.value_or(false) ? 0 : 1;
}
```

**`id`** is a string literal, and it is how the field is reached:
`frame[""revision""_f]`. Ids are unique within a `struct_field_list` — a duplicate
is a compile error, and so is naming an id the schema does not contain, because
the lookup is a concept check rather than a runtime search.

**`type`** is an ordinary C++ type. Which types are admissible depends on the
descriptor: `basic_field` takes integrals, the record descriptors take another
`struct_field_list`, and the string and vector descriptors fix the type
themselves.

**`size`** says how many bytes the field occupies on the wire, which is not the
same question as how large its C++ type is. A `u32` field can be declared to
occupy two bytes. The axis has six forms and enough depth to warrant
[its own page](size-axis.md).

**`constraint`** narrows which values are legal. It is checked in both
directions — while reading, before the value is stored; while writing, before
the field's first byte is emitted — and a violation is a `validation_failure`
either way. The exception is `eq` on a fixed-size field, which narrows to a
single value and so is
[supplied rather than checked](../writing.md#fields-frozen-by-a-constraint-are-read-only-too)
on the way out. See [Constraints and validation](../constraints.md).

## The descriptors

Each descriptor is an alias that fixes some axes and leaves the rest open.
`constraint` is the last parameter of every descriptor that accepts one, and
defaults to `no_constraint`.

The last column is what a reader most often wants: how many bytes the field
consumes off the wire, and where that count comes from.

| Descriptor | Wire concept | Type it holds | Bytes consumed |
|---|---|---|---|
| `basic_field<id, T, opts...>` | trivial | integral `T` | `sizeof(T)`, or an `N_B` that must fit it |
| `fixed_array_field<id, T, N, c>` | array of trivials | `std::array<T, N>` | `N * sizeof(T)` |
| `c_arr_field<id, T, N, c>` | array of trivials | `T[N]` | `N * sizeof(T)` |
| `array_of_records<id, T, N, c>` | array of records | `std::array<T, N>`, `T` a schema | sum of `N` nested schemas |
| `fixed_string_field<id, N, c>` | const-sized string | `fixed_string<N>` | `N + 1`, terminator included |
| `c_str_field<id, N, c>` | const-sized string | `char[N + 1]` | `N + 1`, terminator included |
| `str_field<id, size, c>` | length-prefixed string | `std::string` | byte count from the size axis |
| `vec_field<id, T, size, c>` | length-prefixed vector of trivials | `std::vector<T>` | element count from the size axis |
| `vector_of_records<id, T, size, c>` | length-prefixed vector of records | `std::vector<T>`, `T` a schema | element count from the size axis |
| `struct_field<id, T>` | nested record | `T`, a schema | whatever the nested schema occupies |
| `magic_byte_array<id, N, expected>` | magic bytes | `std::array<unsigned char, N>` | `N`; the value is checked on read and supplied on write |
| `magic_string<id, expected>` | magic string | `fixed_string<expected.size()>` | `size() + 1`; the value is checked on read and supplied on write |
| `magic_number<id, T, size, expected>` | magic number | integral `T` | its declared size; the value is checked on read and supplied on write |
| `maybe<field, present_only_if>` | optional | whatever it wraps | zero, or the wrapped field's |
| `variance<id, deducer, c>` | union | `std::variant` of the alternatives | the selected alternative's |

Four things in that table are easy to misread.

The `+ 1` on `fixed_string_field`, `c_str_field` and `magic_string` is a
terminator byte: a `fixed_string<3>` such as `""PKT""` occupies four bytes on the
wire, not three. A format whose magic is exactly `N` bytes wants
`magic_byte_array`, which has no terminator.

`size_dont_care`, used by the record descriptors, is not a size of zero. It
marks a field whose width is whatever its own nested schema turns out to
occupy, which is why it is never written by hand.

The magic descriptors are not a separate mechanism. Each is an ordinary
descriptor with an `eq` constraint already applied, which is why they take an
`expected` value where the others take a constraint — and why, like any other
`eq`-constrained fixed-size field, they are
[read-only and written from the constraint](../writing.md#fields-frozen-by-a-constraint-are-read-only-too).

Only two entries consume a variable number of bytes from one read to the next
rather than from one schema to the next: `maybe` consumes nothing when its
predicate is false, and `variance` consumes whatever the selected alternative
needs. Every other width is either fixed at compile time or read from an
earlier field.

`maybe` and `variance` are combinators rather than field kinds — they wrap or
select among the descriptors above, and are covered in
[Optional and variant fields](optional-and-variant.md).

## `fixed_string`

`fixed_string<N>` is part of the supported surface, not an internal detail. It
is unavoidable: `magic_string` and `fixed_string_field` use it as their field
type, so reaching either one means handling one.

```cpp
header[""name""_f] = s2s::fixed_string<3>(""PKT"");
```

That assignment is `fixed_string_field`. A `magic_string` takes no assignment at
all — its value is fixed by the `eq` constraint the descriptor applies, and the
write path
[supplies it](../writing.md#fields-frozen-by-a-constraint-are-read-only-too) —
but reading one back still hands out a `fixed_string<N>`.

`N` is the length in characters, excluding the terminator, so the argument is a
four-character string literal. It offers `data()`, `size()`, `to_sv()`, and
comparison against other `fixed_string`s of any length.

## What this guide does not cover

`include/lib/` also holds `static_vector`, `static_map`, and a set of
metaprogramming helpers. These are implementation machinery for keeping compiler
diagnostics readable, they have no user-facing uses, and they are deliberately
undocumented. Treat them as internal and subject to change; `fixed_string` is
the exception, for the reason above.
".
Definition t09 := "# Optional and variant fields

Two combinators sit on top of the descriptors. `maybe` makes a field's
*presence* conditional; `variance` makes its *type* conditional. Both decide by
looking at fields already parsed, using the machinery in
[Computed values](computed-values.md).

## `maybe` — presence deduction

```cpp
s2s::maybe<
  s2s::basic_field<""name_length"", u16, 2_B>,
  s2s::parse_if<has_name, ""flags"">
>
```

The first argument is an ordinary descriptor; the second is a `parse_if` whose
predicate decides whether the field is on the wire at all. Reading, a false
predicate means the field is skipped and the stream position does not move.
Writing, the predicate is checked against whether the struct actually holds a
value, and a disagreement is a `validation_failure` — a predicate is not allowed
to claim ""present"" while the struct is empty, because the result would not read
back.

The value is reached by dereferencing:

```cpp
*(header[""name_length""_f])
```

<!-- docs: test/doc_examples/guide_optional_example.cpp -->
```cpp
#include ""s2s.hpp""

#include <array>
#include <fstream>

using namespace s2s_literals;

using u8 = unsigned char;
using u16 = unsigned short;
using u32 = unsigned int;

// Bit 3 of the flags byte says an original-filename length follows. The
// predicate reads a field already parsed, which is why it must name it.
constexpr auto has_name = [](auto flags) { return (flags & 0x08u) != 0u; };

// A gzip member header, trimmed to the part that shows conditional presence.
using gzip_header =
  s2s::struct_field_list<
    s2s::magic_byte_array<""magic"", 2, std::array<u8, 2>{0x1f, 0x8b}>,
    s2s::basic_field<""method"", u8, 1_B>,
    s2s::basic_field<""flags"", u8, 1_B>,
    s2s::basic_field<""mtime"", u32, 4_B>,
    s2s::maybe<
      s2s::basic_field<""name_length"", u16, 2_B>,
      s2s::parse_if<has_name, ""flags"">
    >
  >;

auto round_trip(u8 flags, bool with_name, const char* path) -> bool {
  gzip_header header{};
  header[""method""_f] = u8{8};
  header[""flags""_f] = flags;
  header[""mtime""_f] = 0x5f000000u;
  if(with_name)
    header[""name_length""_f] = u16{12};

  std::fstream file(path, std::ios::in | std::ios::out | std::ios::binary | std::ios::trunc);

  return s2s::stream_cast_be<gzip_header>(file, header)
    .and_then([&file] {
      file.seekg(0);
      return s2s::struct_cast_be<gzip_header>(file);
    })
    .transform([with_name](const gzip_header& parsed) {
      // An absent optional is empty; a present one is dereferenced.
      return with_name ? *(parsed[""name_length""_f]) == 12 : true;
    })
    .value_or(false);
}

auto main() -> int {
  // FNAME set: the predicate says present, and the header supplies it.
  if(!round_trip(u8{0x08}, true, ""gzip_named.bin""))
    return 1;

  // FNAME clear: the predicate says absent, and the field occupies no bytes.
  if(!round_trip(u8{0x00}, false, ""gzip_plain.bin""))
    return 1;

  // Disagreement is caught: the flag promises a name length, the header has none.
  gzip_header bad{};
  bad[""flags""_f] = u8{0x08};
  std::fstream discard(""gzip_bad.bin"",
                       std::ios::in | std::ios::out | std::ios::binary | std::ios::trunc);

  const auto rejected = s2s::stream_cast_be<gzip_header>(discard, bad);
  if(rejected.has_value())
    return 1;

  return rejected.error().failure_reason == s2s::error_reason::validation_failure ? 0 : 1;
}
```

## `variance` — type deduction

`variance<id, type<...>>` produces a field whose C++ type is a `std::variant` of
the alternatives, reached with `std::get`. There are two ways to say which
alternative applies, and they differ in a way that matters on the write path.

**By discriminant.** `type<match_field<""tag"">, type_switch<match_case<v, tag>...>>`
reads the field named by `match_field` and picks the `match_case` whose value
matches. The discriminant can also be computed rather than read directly, by
putting a `compute<...>` where the `match_field` goes.

**By predicate.** `type<type_if_else<branch<predicate, tag>...>>` evaluates each
branch's predicate in order and takes the first that holds. There is no
discriminant field and nothing about the choice is on the wire.

!!! note ""`if_else_ladder` is not an identifier""

    The directory `include/type_deduction/if_else_ladder/` gives this construct
    its informal name, but no such type exists. The types are `type_if_else`
    and `branch`.

Alternatives are named with type tags rather than descriptors, because an
alternative has no id of its own — it inherits the `variance`'s.

| Tag | Alternative type |
|---|---|
| `as_trivial<T, opts...>` | integral `T` |
| `as_struct<T, opts...>` | a nested schema |
| `as_fixed_arr<T, N, opts...>` | `std::array<T, N>` |
| `as_arr_of_records<T, N, opts...>` | `std::array<T, N>` of schemas |
| `as_vec<T, opts...>` | `std::vector<T>` |
| `as_vec_of_records<T, opts...>` | `std::vector<T>` of schemas |
| `as_string<opts...>` | `std::string` |
| `as_fixed_string<N, opts...>` | `fixed_string<N>` |

A tag's trailing `opts...` is the same order-independent option pack its mirror
descriptor takes — a size, a constraint and an allocation bound. `as_vec<u8,
len_from_field<""n"">>` reads the same as it always did; what changed is that the
size is a pack entry rather than a fixed second argument, which is what lets
further options join it without a new spelling.

Which entries a tag admits follows from the tag. The four whose size is fixed by
the tag itself — `as_struct`, `as_fixed_arr`, `as_arr_of_records` and
`as_fixed_string` — take a constraint and nothing else. The three whose extent
comes off the wire — `as_vec`, `as_string` and `as_vec_of_records` — take a
bound as well. An entry a tag does not admit is a compile error, not a silently
ignored one.

`N` stays positional on `as_fixed_arr`, `as_fixed_string` and
`as_arr_of_records`: it is an element count, not a size value.

`as_trivial<T>` with no size entry defaults to `sizeof(T)`, exactly as
`basic_field<""x"", T>` does.

!!! warning ""`as_vec_of_records` cannot be written""

    A `as_vec_of_records` alternative reads correctly but fails to write, with
    `found_contradicting_length` at its length field. The length is never
    derived from the held vector, and because it is a length target it cannot be
    assigned either, so there is no way to write one today. Reading is
    unaffected. The other seven tags round-trip.

**Which form is chosen decides whether the discriminant is data anyone
supplies.** A `match_case` value can be run backwards — if the variant holds the
alternative tagged `2`, the discriminant is `2` — so the library derives the
`match_field` target and makes assigning to it a compile error. A `branch`
predicate cannot be inverted, so the fields feeding it stay assignable and are
verified instead: at write time the predicates are re-evaluated, and if the
branch they select is not the alternative being held, the write fails with
`validation_failure`.

If no branch holds and no `match_case` matches, the failure is
`type_deduction_failure` rather than `validation_failure` — the library could
not work out which alternative applies at all, as opposed to finding one that
disagrees.

<!-- docs: test/doc_examples/guide_variance_example.cpp -->
```cpp
#include ""s2s.hpp""

#include <fstream>
#include <variant>

using namespace s2s_literals;

using u8 = unsigned char;
using u32 = unsigned int;
using i32 = int;

// Selection by discriminant. A tag-length-value record carries the tag on the
// wire, and it says how the value should be read.
using tlv_record =
  s2s::struct_field_list<
    s2s::basic_field<""tag"", u8, 1_B>,
    s2s::variance<
      ""value"",
      s2s::type<
        s2s::match_field<""tag"">,
        s2s::type_switch<
          s2s::match_case<1, s2s::as_trivial<u32, 4_B>>,
          s2s::match_case<2, s2s::as_trivial<i32, 4_B>>
        >
      >
    >
  >;

// Selection by predicate. Nothing on the wire names the payload shape; it
// follows from a length already read, the way formats inline small values and
// reference large ones.
constexpr auto fits_inline = [](auto length) { return length <= 4u; };
constexpr auto needs_reference = [](auto length) { return length > 4u; };

using extent_record =
  s2s::struct_field_list<
    s2s::basic_field<""length"", u32, 4_B>,
    s2s::variance<
      ""payload"",
      s2s::type<
        s2s::type_if_else<
          s2s::branch<
            s2s::predicate<fits_inline, ""length"">,
            s2s::as_trivial<u32, 4_B>
          >,
          s2s::branch<
            s2s::predicate<needs_reference, ""length"">,
            s2s::as_trivial<i32, 4_B>
          >
        >
      >
    >
  >;

auto main() -> int {
  // ""tag"" is never assigned: it is derived from the alternative held.
  tlv_record record{};
  record[""value""_f] = i32{-40};

  std::fstream tlv(""tlv_record.bin"",
                   std::ios::in | std::ios::out | std::ios::binary | std::ios::trunc);

  const auto tlv_ok =
    s2s::stream_cast_be<tlv_record>(tlv, record)
      .and_then([&tlv] {
        tlv.seekg(0);
        return s2s::struct_cast_be<tlv_record>(tlv);
      })
      .transform([](const tlv_record& parsed) {
        return parsed[""tag""_f] == 2 && std::get<i32>(parsed[""value""_f]) == -40;
      });

  if(!tlv_ok.value_or(false))
    return 1;

  // ""length"" stays assignable: a predicate has no inverse, so it is verified
  // against the alternative held rather than derived from it.
  extent_record extent{};
  extent[""length""_f] = 4u;
  extent[""payload""_f] = u32{0xfeedface};

  std::fstream ext(""extent_record.bin"",
                   std::ios::in | std::ios::out | std::ios::binary | std::ios::trunc);

  const auto extent_ok =
    s2s::stream_cast_be<extent_record>(ext, extent)
      .and_then([&ext] {
        ext.seekg(0);
        return s2s::struct_cast_be<extent_record>(ext);
      })
      .transform([](const extent_record& parsed) {
        return std::get<u32>(parsed[""payload""_f]) == 0xfeedface;
      });

  if(!extent_ok.value_or(false))
    return 1;

  // The held alternative contradicts the branch the predicates select.
  extent_record inconsistent{};
  inconsistent[""length""_f] = 64u;
  inconsistent[""payload""_f] = u32{1};
  std::fstream discard(""extent_bad.bin"",
                       std::ios::in | std::ios::out | std::ios::binary | std::ios::trunc);

  const auto rejected = s2s::stream_cast_be<extent_record>(discard, inconsistent);
  if(rejected.has_value())
    return 1;

  return rejected.error().failure_reason == s2s::error_reason::validation_failure ? 0 : 1;
}
```

Two rules are enforced on a `variance` at compile time: the alternatives must be
distinct types, and the `match_case` values must be unique.

### Constraining an alternative

An alternative's payload is validated by putting a constraint in its tag's pack:

```cpp
s2s::match_case<0x01, s2s::as_trivial<u32, 4_B, s2s::lte{99u}>>
```

A payload that violates it is `validation_failure` in both directions, exactly
as an ordinary field's constraint is. `failed_at` names the **`variance`**, not
the alternative: an alternative has no id of its own, so a breach inside the
third alternative of `""body""` is reported as `""body""`. Which alternative it was
is recoverable from the discriminant.

**The constraint applies to the tag's resulting type, not its element type.** On
`as_vec<u8, len_from_field<""n"">, ...>` the constraint is checked against
`std::vector<u8>`, so it is a predicate over the whole container rather than
over each `u8`:

```cpp
struct even_length {
  constexpr auto operator()(const std::vector<u8>& payload) const -> bool {
    return payload.size() % 2 == 0;
  }
};

s2s::match_case<0x02, s2s::as_vec<u8, s2s::len_from_field<""n"">, even_length{}>>
```

The same holds for the rest: an `as_fixed_arr<u8, 4, ...>` constraint sees
`std::array<u8, 4>`, and an `as_struct<inner, ...>` constraint sees `inner`.
Constraints are values, so anything beyond the built-ins in
[Constraints and validation](../constraints.md) is spelled as a functor like the
one above — it must be usable as a template argument, which an empty struct is.

Entries are order-independent, so the size and the constraint may be written
either way round:

```cpp
s2s::as_trivial<u32, s2s::lte{99u}, 4_B>   // the same alternative
```

Two entries of the same kind in one pack is a compile error.

### Constraining the resolved variant

A `variance` takes a constraint of its own, after the deducer:

```cpp
struct even_body {
  constexpr auto operator()(const std::variant<u32, u16>& body) const -> bool {
    return std::visit([](auto value) { return value % 2 == 0; }, body);
  }
};

s2s::variance<""body"", guide, even_body{}>
```

This is a different thing from the section above, and the difference is what it
sees. An alternative's constraint is handed one alternative's payload and runs
only when that alternative is the one selected. A `variance`'s constraint is
handed the resolved `std::variant` and runs whichever alternative was selected —
so it is where a rule that holds across the whole union belongs, rather than
being repeated on every tag.

Both may be declared, and both then apply: the alternative's runs against the
payload, the union's against the variant that payload was moved into. Neither
implies the other, and either can reject on its own.

Because the value is a `std::variant`, the constraint is always a functor: a
variant is not a structural type, so it cannot be a template argument to `eq{}`
and the built-in comparisons are unspellable here.

The union's pack admits a constraint and nothing else. A union's own size is
`size_dont_care` and it drives no allocation of its own — only its alternatives
do — so a size or a `max_bytes` entry here is a compile error rather than an
entry that would quietly do nothing. Two constraints is a compile error too, for
the same reason it is on any other pack.

### Bounding an alternative

A container alternative's length comes off the wire, so it carries the same
`max_bytes` ceiling every other wire-sized container does — see
[allocation limits](../reading.md#allocation-limits):

```cpp
s2s::match_case<0x02, s2s::as_vec<u8, s2s::len_from_field<""n"">,
                                      s2s::max_bytes<4096>>>
```

The rules are the ones that already apply to `vec_field` and `str_field`. The
ceiling is `count * sizeof(element)` and inclusive; an alternative that declares
nothing still gets `S2S_DEFAULT_MAX_BYTES` rather than being unbounded; and a
declared bound is the author's intent, so no build setting clamps it in either
direction. An over-long alternative is `excessive_length`, reported against the
`variance`.

Only `as_vec`, `as_string` and `as_vec_of_records` take one. On the other five
the extent is fixed by the tag, so nothing a stream says can change how much is
allocated and there is nothing for a ceiling to guard — a `max_bytes` there is a
compile error rather than an entry that would quietly do nothing.

All three kinds of entry compose, in any order:

```cpp
s2s::as_vec<u8, even_length{}, s2s::max_bytes<4096>, s2s::len_from_field<""n"">>
```
".
Definition t10 := "# The size axis

The size axis answers one question: how many bytes does this field occupy on
the wire? That is not the same question as how large its C++ type is. A field
whose type is `u32` can be declared to occupy two bytes, and reading it will
produce a `u32` holding a value that arrived as two bytes.

A size is a **value**, not a type, and it is written directly as one of five
forms. There is no wrapper around it.

| Form | How the width is determined |
|---|---|
| `N_B` | exactly `N` bytes, fixed at compile time |
| `len_from_field<""id"">` | the value currently held by the field named `id` |
| `size_from_fields<f, ""a"", ""b"">` | a callable applied to the named sibling fields |
| `len_from_fields<f, ""a"", ""b"">` | an alias for `size_from_fields` |
| `size_dont_care` | whatever the field's own nested schema occupies |

**`N_B`** is the only form a `basic_field` accepts, and it is constrained:
`field_fits_to_underlying_type` requires `N <= sizeof(T)`. Declaring a
`basic_field<""x"", u16, 4_B>` is a compile error, because four bytes off the
wire cannot be delivered into a two-byte type.

**A `basic_field` that omits its size gets `sizeof(T)`**, which is what most
fields want:

```cpp
s2s::basic_field<""version"", u16>          // two bytes
s2s::basic_field<""version"", u16, 2_B>     // the same field, spelled out
s2s::basic_field<""truncated"", u32, 2_B>   // two bytes on the wire, u32 in the struct
```

The size and the constraint are an unordered pair, so either may be given, in
either order, or neither. An entry that is neither a size nor a constraint is
rejected by a named concept that says what was expected, and giving two of the
same kind is a `static_assert`.

**`len_from_field<""id"">`** takes the width from another field's value — the
length-prefix pattern. The named field must appear earlier in the schema, since
reading is strictly left to right and the length has to be known before the
field it sizes.

**`size_from_fields<f, ""a"", ""b"">`** covers everything a single field
lookup cannot express: a length in units other than bytes, a total minus a
header, a width assembled from two fields. The callable and its inputs are
described in [Computed values](computed-values.md); `len_from_fields` is the
same template under a name that reads better at a length.

**`size_dont_care`** is what the record descriptors use. It is not zero and it
is not ""unknown"" — it means the width is whatever the nested schema works out
to, so there is nothing to declare. It is never written by hand.

## Sizes and ceilings are different things

A size says how many bytes a field occupies; a ceiling says how many it is
allowed to occupy before the read gives up. They travel together in the same
option pack but answer different questions, and only the container descriptors
take a ceiling at all. See [Allocation limits](../reading.md#allocation-limits).

## Invertible sizes, and why the write path cares

The distinction that matters on the write path is whether a size can be run
backwards.

`len_from_field<""n"">` can. If the container holds four elements then `n` is
four, so the library **derives** `n` from the data and makes assigning to it a
compile error. The two can never disagree because only one of them is data
anyone supplies.

`size_from_fields<f, ...>` cannot. `f` is an arbitrary callable; knowing its
output does not reveal its inputs. So its source fields stay assignable and the
library **verifies** instead: it applies `f` at write time and fails with
`found_contradicting_length` if the answer disagrees with the container's real
size.

Reading is unaffected by the distinction — both forms simply produce a width.
[Writing](../writing.md) covers the consequences in full.

## `size_choices` is not currently declarable

`size_choices` exists to give a union alternative its own width, and the
library's internal union machinery uses it. It cannot currently be written into
a schema: `is_selectable_size_v` reads the wrong trait, so the concept that
would admit a `size_choices` rejects it and admits fixed sizes instead. See
`dev/issues/027-is-selectable-size-trait-reads-wrong-trait.md`. It is listed
here for completeness and should be treated as unavailable until that is fixed.
".
Definition t11 := "# Streams

The library never owns a stream and never creates one. It calls two operations
on whatever it is handed and checks whether the thing still looks healthy
afterwards. That is the whole contract, and satisfying it is how ""pluggable
interfaces working with custom streams"" is meant to be acted on.

## What a stream must provide

Two concepts gate the public API, and each is a disjunction underneath.

```cpp
template <typename T>
concept input_stream_like =
  (identified_as_constexpr_stream<T> || readable<T>) && convertible_to_bool<T>;

template <typename T>
concept output_stream_like =
  (identified_as_constexpr_stream<T> || writeable<T>) && convertible_to_bool<T>;
```

| Concept | Required expression | Returning |
|---|---|---|
| `read_trait<T>` | `obj.read(char*, std::streamsize)` | `T&` |
| `std_read_trait<T>` | `obj.read(char*, std::streamsize)` | convertible to `std::istream&` |
| `write_trait<T>` | `obj.write(const char*, std::size_t)` | `T&` |
| `std_write_trait<T>` | `obj.write(const char*, std::size_t)` | convertible to `std::ostream&` |
| `readable<T>` | either read form | — |
| `writeable<T>` | either write form | — |
| `convertible_to_bool<T>` | `obj.operator bool()` and `!obj` | `bool` |

The `std_` variants exist so the standard streams work untouched: `std::ifstream`
and `std::fstream` return `std::istream&` from `read`, which is why they satisfy
`std_read_trait` rather than `read_trait`. A hand-written type will normally
return `T&` and satisfy the plain form. Either is accepted.

`convertible_to_bool` is not optional and is easy to miss. The library tests the
stream after every access, so it needs both `operator bool` and `operator!` to
yield `bool`. An `explicit operator bool` satisfies both, because `!obj` is a
contextual conversion.

**Failure is reported by going bad, not by throwing.** A stream that cannot
satisfy a read marks itself unhealthy and returns; the library observes that on
the next `bool` test and reports `buffer_exhaustion` against the field it was
working on. Throwing out of `read` or `write` propagates through the library,
which is not designed to be exception-safe part way through a field.

## A reference implementation

<!-- docs: test/doc_examples/guide_stream_example.cpp -->
```cpp
#include ""s2s.hpp""

#include <algorithm>
#include <array>
#include <cstddef>
#include <ios>
#include <vector>

using namespace s2s_literals;

using u8 = unsigned char;
using u32 = unsigned int;

// A complete stream, satisfying read_trait, write_trait and convertible_to_bool.
// Nothing else is required: no seeking, no exceptions, no std::ios base.
class byte_stream {
  std::vector<char> buffer;
  std::size_t read_pos{0};
  bool ok{true};

public:
  // read_trait: takes a raw destination and a count, returns *this by reference.
  auto read(char* dest, std::streamsize size_to_read) -> byte_stream& {
    const auto n = static_cast<std::size_t>(size_to_read);
    if(read_pos + n > buffer.size()) {
      ok = false;               // report exhaustion by going bad, not by throwing
      return *this;
    }
    std::copy_n(buffer.begin() + static_cast<std::ptrdiff_t>(read_pos), n, dest);
    read_pos += n;
    return *this;
  }

  // write_trait: takes a raw source and a count, returns *this by reference.
  auto write(const char* src, std::size_t size_to_write) -> byte_stream& {
    buffer.insert(buffer.end(), src, src + size_to_write);
    return *this;
  }

  // convertible_to_bool: the library tests the stream after every access.
  explicit operator bool() const { return ok; }
};

// A heartbeat frame, small enough that the stream is the interesting part.
using heartbeat =
  s2s::struct_field_list<
    s2s::magic_byte_array<""marker"", 2, std::array<u8, 2>{0x48, 0x42}>,
    s2s::basic_field<""sequence"", u32, 4_B>
  >;

static_assert(s2s::input_stream_like<byte_stream>);
static_assert(s2s::output_stream_like<byte_stream>);

auto main() -> int {
  heartbeat beat{};
  beat[""sequence""_f] = 0xdeadbeefu;

  byte_stream stream;

  const auto round_tripped =
    s2s::stream_cast_be<heartbeat>(stream, beat)
      .and_then([&stream] { return s2s::struct_cast_be<heartbeat>(stream); })
      .transform([](const heartbeat& parsed) {
        return parsed[""sequence""_f] == 0xdeadbeefu;
      });

  if(!round_tripped.value_or(false))
    return 1;

  // Reading past the end sets the bad flag, which surfaces as buffer_exhaustion.
  const auto overrun = s2s::struct_cast_be<heartbeat>(stream);
  if(overrun.has_value())
    return 1;

  return overrun.error().failure_reason == s2s::error_reason::buffer_exhaustion ? 0 : 1;
}
```

The `static_assert`s are worth keeping in real code. Failing the concept at the
point of definition produces a readable error; failing it at the call to
`struct_cast` produces a template instantiation trace.

## Constexpr streams

A stream usable during constant evaluation is identified by inheritance, not by
its operations:

```cpp
template <std::size_t N>
class memstream: s2s::constexpr_stream { /* ... */ };
```

`s2s::constexpr_stream` is an empty base struct used as a tag, and
`identified_as_constexpr_stream<T>` tests for it. Deriving from it is what puts
a type on the constexpr path — `input_stream_like` and `output_stream_like`
accept such a type without checking its read and write operations at all.

A constexpr stream works on `std::array<char, N>` rather than `char*`, because
pointer arithmetic over a buffer is not available during constant evaluation:

```cpp
template <std::size_t dest_buffer_size>
constexpr auto read(std::array<char, dest_buffer_size>& dest, std::size_t n) -> memstream&;

template <std::size_t src_buffer_size>
constexpr auto write(const std::array<char, src_buffer_size>& src, std::size_t n) -> memstream&;
```

[Compile time](compile-time.md) carries a complete one, and
`test/utils/constexpr_memstream.hpp` adds the `rewind()` needed to read back
what was just written.

!!! warning ""The constexpr traits are not enforced""

    Two concepts, `constexpr_read_trait<T, N>` and `constexpr_write_trait<T, N>`,
    describe exactly those two signatures — but nothing in `include/` refers to
    them. A constexpr stream is admitted on the strength of its base class
    alone, so these two document the expected shape without enforcing it.
    Deriving from `constexpr_stream` with the wrong signatures fails later,
    inside the read or write, rather than at the concept check.
".
Definition t12 := "# The meta-struct

```cpp
template <typename... fields>
struct struct_field_list { /* implementation */ };
```

A `struct_field_list` is a meta-struct: a fixed set of named members with a
map-like interface. It is both the schema and the value. The same type that
declares what a format looks like is the type an instance of that format is
parsed into.

Members are reached with `operator[]` and the `_f` literal from
`s2s_literals`:

```cpp
frame[""device_id""_f]
```

```cpp
template <typename field_accessor, typename field_lookup = /* field_lookup metafunction */>
    requires /* field_lookup success */
auto& operator[](field_accessor);

template <typename field_accessor, typename field_lookup = /* field_lookup metafunction */>
    requires /* field_lookup success */
const auto& operator[](field_accessor);
```

Lookup is a compile-time concept check, not a runtime search. Naming a field the
schema does not contain is a compilation failure, and so is declaring the same
id twice within one `struct_field_list`. There is no lookup cost at run time and
no way to ask for a field that is not there.

The non-const overload returns a mutable reference for ordinary fields and a
const reference for derived ones, which is how assigning to a derived field
becomes a compile error rather than a value that silently disagrees with the
data. [Writing](writing.md) covers which fields are derived and why.
".
Definition t13 := "# Writing

```cpp
template <struct_field_list_like T, output_stream_like S>
[[nodiscard]] auto stream_cast_le(S& stream, const T& obj) -> std::expected<void, cast_error>;

template <struct_field_list_like T, output_stream_like S>
[[nodiscard]] auto stream_cast_be(S& stream, const T& obj) -> std::expected<void, cast_error>;
```

These mirror `struct_cast_xx`: the same schema drives both directions, the
suffix picks the byte order of every member, and failures come back as the same
`cast_error`. There is nothing to return on success, so the `expected` holds
`void`.

Both entry points are named after what they produce, which is what makes the
pair read as one API: `struct_cast` yields a struct, `stream_cast` yields a
stream.

The struct is written strictly left to right, one field at a time, in
declaration order and at every nesting level — the same traversal
[Reading](reading.md) describes.

What is specific to this direction is that the schema now has to *produce* the
values it previously only consumed. Every construct below is declared in
[Schema](schema/index.md); this page covers only what writing does with them.

## A worked example

<!-- docs: test/doc_examples/guide_writing_example.cpp -->
```cpp
#include ""s2s.hpp""

#include <array>
#include <fstream>
#include <string>

using namespace s2s_literals;

using u8 = unsigned char;
using u16 = unsigned short;

// A length-prefixed log record. The length is not data anyone supplies; it is
// a consequence of the message.
using log_record =
  s2s::struct_field_list<
    s2s::magic_byte_array<""marker"", 2, std::array<u8, 2>{0x4c, 0x47}>,
    s2s::basic_field<""message_length"", u16, 2_B>,
    s2s::str_field<""message"", s2s::len_from_field<""message_length"">>
  >;

auto main() -> int {
  log_record record{};
  record[""message""_f] = std::string(""disk nearly full"");
  // Neither ""marker"" nor ""message_length"" is assigned. The marker's value is
  // fixed by its constraint; the length is derived from message.size().

  std::fstream file(""log_record.bin"",
                    std::ios::in | std::ios::out | std::ios::binary | std::ios::trunc);

  const auto round_tripped =
    s2s::stream_cast_be<log_record>(file, record)
      .and_then([&file] {
        // A file stream shares one position between reads and writes.
        file.seekg(0);
        return s2s::struct_cast_be<log_record>(file);
      })
      .transform([](const log_record& parsed) {
        return parsed[""message""_f].size() == 16
            && parsed[""message""_f] == ""disk nearly full"";
      });

  return round_tripped.value_or(false) ? 0 : 1;
}
```

## Derived fields are read-only

Some fields are not data anyone supplies — they are consequences of data that
is. Writing them from the struct would let the two disagree, producing a stream
that does not read back as what was handed in. So the library derives them,
ignores whatever the struct holds, and makes assigning to them a compile error.

Two kinds of field are derived:

| Field | Derived from |
|---|---|
| the target of a `len_from_field<""n"">` size | the container's `size()` |
| the `match_field` discriminant of a `type_switch` variance | the `match_case` value of the alternative currently held |

Both are invertible, which is what makes deriving them possible at all.

The two kinds are not hidden the same way, because they differ in whether
anything else can answer the question.

**A length target has no `operator[]` overload at all.** Naming one is a
plain no-such-member error, on a const object as much as a mutable one:

```cpp
log_record record{};
record[""message""_f] = std::string(""disk nearly full"");
record[""message_length""_f];                 // does not compile
std::as_const(record)[""message_length""_f];  // does not compile either
```

It is hidden rather than made read-only because a read-only accessor would
still have been a lie. `operator[]` hands back a reference, so a length kept in
step at assignment time would fall out of step the moment anyone wrote
`record[""message""_f].push_back(...)` — and nothing in the type system could
catch that. The container is the only thing that knows, so the container is
where you ask:

```cpp
const auto n = record[""message""_f].size();
```

The field is still on the wire and still read into the struct when parsing; it
is only the user's view of it that is gone. Nothing about the byte layout
changes.

**A discriminant stays readable, and returns the stored slot.** The non-const
`operator[]` hands back a const reference, so an assignment fails as
assign-to-read-only rather than as no-such-member:

```cpp
tagged record{};
record[""body""_f] = alt_1{};
record[""tag""_f] = 1;                        // does not compile
const auto t = record[""tag""_f];             // compiles
const auto u = std::as_const(record)[""tag""_f];  // compiles
```

What that read gives is **the stored slot, not the derived value.** Derivation
happens during the write, against the struct passed as `const`, and the result
is never written back — so on a freshly built struct the slot holds whatever it
was default-constructed to, and on one that came from `struct_cast` it holds
what was parsed off the wire.

Discriminants are treated differently from length targets only because how a
caller should reach a variance field's held alternative is still unsettled;
hiding them waits on that.

**This is a breaking change to existing read-side code.** Code that parsed a
struct and then adjusted a length field in place:

```cpp
auto parsed = *s2s::struct_cast_le<log_record>(stream);
parsed[""message_length""_f] = 5;   // used to compile, no longer does
```

should assign the container instead. The length follows:

```cpp
parsed[""message""_f] = std::string(""short"");   // the written length becomes 5
```

So does code that merely *read* one, which used to compile and no longer does.
`parsed[""message""_f].size()` is the replacement, and it cannot disagree with
what gets written.

Fields that are *not* derived stay assignable, including ones that look similar:
the sources feeding a `len_from_fields<callable, ...>` callable, the siblings
feeding a `parse_if` predicate, the fields feeding a `branch` predicate inside a
`type_if_else`, and a length whose only container sits inside a `maybe` or a
union alternative. None of those can be inverted, so they remain data anyone
supplies — and are verified rather than derived.

The rule behind that list is
[invertibility](schema/size-axis.md#invertible-sizes-and-why-the-write-path-cares):
a construct the library can run backwards is derived and made read-only, and one
it cannot is left alone and checked.

## Fields frozen by a constraint are read-only too

A field constrained to `eq{v}` has one legal value, and the schema already
states it. Rather than requiring the caller to state it a second time, the
write path takes the value off the constraint and puts it on the wire. Such a
field is read-only for the same reason a discriminant is, and behaves the same
way — readable, not assignable:

```cpp
using chunk =
  s2s::struct_field_list<
    s2s::magic_byte_array<""marker"", 2, std::array<u8, 2>{0x4c, 0x47}>,
    s2s::basic_field<""version"", u16, 2_B, s2s::eq{u16{1}}>,
    s2s::basic_field<""payload"", u32, 4_B>
  >;

chunk c{};
c[""payload""_f] = 0xcafed00d;
c[""marker""_f] = std::array<u8, 2>{0x4c, 0x47};  // does not compile
const auto parsed_marker = c[""marker""_f];       // compiles
```

This covers `magic_string`, `magic_number` and `magic_byte_array`, since
[each is an ordinary descriptor with `eq` already filled in](constraints.md#the-magic-descriptors-are-constraints),
and equally a hand-spelled `eq` on any fixed-size field. It is the constraint
that decides, not the descriptor's name.

Only fixed-size fields are frozen. `eq` on a variable-sized field would make
its length slot statically known and collide with length derivation, so such a
field keeps the ordinary checked-on-write behaviour. So does a union
alternative pinned to `eq`: there is no setter to remove — the caller supplies
the whole variant — and silently replacing a payload they chose is worse than
rejecting it, so an alternative's `eq` is still checked and can still fail.

As with a discriminant, a read gives the stored slot rather than the value that
will be written: default-constructed on a fresh struct, and what was parsed on
one that came from `struct_cast`.

**This too is a breaking change.** Code that assigned a magic value before
writing should delete the assignment; the value it was supplying is the one the
library now supplies itself. A write can no longer fail because a magic value
was wrong — but a *read* still rejects wrong magic bytes exactly as before,
which is where that check was always doing the real work.

## What is checked at write time

Everything the library can check without a second pass is checked *before* the
offending field's first byte is emitted.

| Inconsistency | `failure_reason` | `failed_at` |
|---|---|---|
| a constraint rejects the value | `validation_failure` | that field |
| a `parse_if` predicate disagrees with the optional's `has_value()` | `validation_failure` | the optional field |
| a constraint on a union alternative rejects its payload | `validation_failure` | the union field |
| a constraint on a `variance` rejects the resolved variant | `validation_failure` | the union field |
| a `type_if_else` or computed switch selects an alternative other than the one held | `validation_failure` | the union field |
| no branch and no `match_case` matches at all | `type_deduction_failure` | the union field |
| a derived or verified length does not fit its declared width | `validation_failure` | the length field |
| a `len_from_fields` callable disagrees with the container's real size | `found_contradicting_length` | the container field |
| two containers sharing one length field imply different lengths | `found_contradicting_length` | the length field |
| a length inside a `maybe` or union alternative disagrees while that producer is active | `found_contradicting_length` | the length field |
| the underlying stream refuses the write | `buffer_exhaustion` | the field being written |

For a violation inside a nested record, `failed_at` names the outermost record
field rather than the inner one, matching how the read path reports nested
failures.

## Write-once, fail-fast

There is no rollback and no size query. Bytes handed to a stream are gone, so
the unit of atomicity is one field rather than the whole write:

- every derivation, verification and constraint check for a field runs before
  its first byte is emitted;
- a failure attributed to field `k` therefore leaves fields `0..k-1` in the
  stream and nothing of `k` — a well-defined prefix.

The one exception is a stream that fails part way through a single field: how
much it consumed is the stream's business, and the library reports
`buffer_exhaustion`. Recovering from a partial write is the caller's
responsibility — truncate, discard, or write to a staging buffer first when
all-or-nothing is required.
".
Definition t14 := "# Kept beside the pages it builds rather than at the repo root, so everything
# needed to render the guide lives in one directory. Invoke with
#   mkdocs serve -f docs/mkdocs.yml
site_name: s2s
site_description: A declarative binary parser for C++23 — stream to struct, and back again.
repo_url: https://github.com/hariprasad12994/struct_cast
repo_name: hariprasad12994/struct_cast
edit_uri: edit/main/docs/

# The pages sit next to this file, so the config and its requirements would
# otherwise be copied into the built site as if they were content.
docs_dir: .
site_dir: ../site
exclude_docs: |
  mkdocs.yml
  requirements.txt

theme:
  name: material
  # Fetched from Google Fonts at page load. Set `font: false` to opt out and
  # fall back to system faces, which is the move if the site ever needs to work
  # offline or avoid a third-party request.
  font:
    text: Roboto
    code: Source Code Pro
  features:
    - navigation.sections
    - navigation.top
    - navigation.tracking
    - content.code.copy
    - toc.follow
  palette:
    - media: ""(prefers-color-scheme: light)""
      scheme: default
      toggle:
        icon: material/weather-night
        name: Switch to dark mode
    - media: ""(prefers-color-scheme: dark)""
      scheme: slate
      toggle:
        icon: material/weather-sunny
        name: Switch to light mode

nav:
  - Overview: index.md
  - The meta-struct: struct.md
  - Schema:
      - Fields and axes: schema/index.md
      - The size axis: schema/size-axis.md
      - Computed values: schema/computed-values.md
      - Optional and variant fields: schema/optional-and-variant.md
  - Constraints and validation: constraints.md
  - Reading: reading.md
  - Writing: writing.md
  - Streams: streams.md
  - Compile time: compile-time.md
  - Errors: errors.md
  - Reference: reference.md

markdown_extensions:
  - admonition
  - toc:
      permalink: true
  - pymdownx.highlight:
      anchor_linenums: true
  - pymdownx.superfences
  - pymdownx.details
  - tables

# Every fenced program in these pages is compiled by ctest and compared against
# its source. A broken link or a moved page is cheap to miss by eye, so the
# build is strict about both.
strict: true
".
Definition t15 := "// The derived-field claims docs/writing.md makes in prose,
// asserted rather than shown. They are not part of any fenced block, so the
// doc_examples_match test cannot cover them; this target does.
//
// guide_writing_example.cpp is the other half of the pair, and carries the
// worked example that section displays.
//
// The claims that a length target cannot be named at all, on either subscript,
// are the one part this file cannot make: a program asserting them would not
// compile. test/must_not_compile/hidden_length_target.cpp carries those.
#include ""s2s.hpp""

#include <array>
#include <fstream>
#include <string>
#include <utility>
#include <variant>
#include <cstdio>

using namespace s2s_literals;

using u8 = unsigned char;
using u16 = unsigned short;
using u32 = unsigned int;

using log_record =
  s2s::struct_field_list<
    s2s::magic_byte_array<""marker"", 2, std::array<u8, 2>{0x4c, 0x47}>,
    s2s::basic_field<""message_length"", u16, 2_B>,
    s2s::str_field<""message"", s2s::len_from_field<""message_length"">>
  >;

using alt_1 = s2s::struct_field_list<s2s::basic_field<""x"", u32, 4_B>>;
using alt_2 = s2s::struct_field_list<s2s::basic_field<""y"", u32, 4_B>>;

using tagged =
  s2s::struct_field_list<
    s2s::basic_field<""tag"", u32, 4_B>,
    s2s::variance<""body"", s2s::type<
      s2s::match_field<""tag"">,
      s2s::type_switch<
        s2s::match_case<0xcafed00d, s2s::as_struct<alt_1>>,
        s2s::match_case<0xdeadbeef, s2s::as_struct<alt_2>>
      >
    >>
  >;

auto main() -> int {
  log_record record{};
  record[""message""_f] = std::string(""disk nearly full"");

  // The guide states the container is where to ask for a length, since the
  // length target itself is no longer nameable.
  if(record[""message""_f].size() != 16) {
    std::printf(""the container does not report its own length\n"");
    return 1;
  }

  // The guide states a discriminant is still readable through either
  // subscript, and gives the stored slot rather than the derived value.
  tagged tag_record{};
  tag_record[""body""_f] = alt_1{};
  if(tag_record[""tag""_f] != 0 || std::as_const(tag_record)[""tag""_f] != 0) {
    std::printf(""a discriminant slot is populated before any write\n"");
    return 1;
  }

  std::fstream le(""doc_claims_le.bin"",
                  std::ios::in | std::ios::out | std::ios::binary | std::ios::trunc);
  if(!s2s::stream_cast_le<log_record>(le, record).has_value())
    return 1;

  std::fstream be(""doc_claims_be.bin"",
                  std::ios::in | std::ios::out | std::ios::binary | std::ios::trunc);

  const auto parsed =
    s2s::stream_cast_be<log_record>(be, record)
      .and_then([&be] {
        be.seekg(0);
        return s2s::struct_cast_be<log_record>(be);
      });

  // The length went onto the wire and sized the container coming back, which
  // is the whole of what a hidden target still does.
  if(!parsed.has_value() || (*parsed)[""message""_f].size() != 16)
    return 1;

  // The guide's replacement for the no-longer-compiling assignment to a
  // derived length: assign the container, and the length follows.
  auto reopened = *parsed;
  reopened[""message""_f] = std::string(""ok"");

  std::fstream again(""doc_claims_again.bin"",
                     std::ios::in | std::ios::out | std::ios::binary | std::ios::trunc);

  const auto reread =
    s2s::stream_cast_be<log_record>(again, reopened)
      .and_then([&again] {
        again.seekg(0);
        return s2s::struct_cast_be<log_record>(again);
      })
      .transform([](const log_record& r) { return r[""message""_f].size() == 2; });

  if(!reread.value_or(false)) {
    std::printf(""assigning the container did not move the derived length\n"");
    return 1;
  }

  std::printf(""doc claims ok\n"");
  return 0;
}
".
Definition t16 := "// Backs the computed-values example in docs/schema/computed-values.md. The region between
// docs-begin and docs-end is compared against that fenced block by the
// doc_examples_match test, so edit them together or the check fails.
// docs-begin
#include ""s2s.hpp""

#include <fstream>
#include <vector>

using namespace s2s_literals;

using u16 = unsigned short;

// The callable is a non-type template argument, so it has to be usable in a
// constant expression and named somewhere the schema can reach.
constexpr auto pixel_count = [](auto width, auto height) { return width * height; };

// An image tile. Nothing on the wire states how many pixels follow — the count
// is the product of two fields that are each meaningful on their own.
using image_tile =
  s2s::struct_field_list<
    s2s::basic_field<""width"", u16, 2_B>,
    s2s::basic_field<""height"", u16, 2_B>,
    s2s::vec_field<
      ""pixels"",
      u16,
      s2s::len_from_fields<pixel_count, ""width"", ""height"">
    >
  >;

auto main() -> int {
  image_tile tile{};
  // ""width"" and ""height"" stay assignable: multiplication cannot be run
  // backwards, so they are verified against pixels.size() rather than derived.
  tile[""width""_f] = u16{4};
  tile[""height""_f] = u16{2};
  tile[""pixels""_f] = std::vector<u16>(8, 0x7fff);

  std::fstream file(""image_tile.bin"",
                    std::ios::in | std::ios::out | std::ios::binary | std::ios::trunc);

  const auto round_tripped =
    s2s::stream_cast_be<image_tile>(file, tile)
      .and_then([&file] {
        file.seekg(0);
        return s2s::struct_cast_be<image_tile>(file);
      })
      .transform([](const image_tile& parsed) {
        return parsed[""pixels""_f].size() == 8;
      });

  if(!round_tripped.value_or(false))
    return 1;

  // A tile claiming dimensions its pixel run cannot satisfy is rejected rather
  // than written as a stream that will not read back.
  image_tile inconsistent = tile;
  inconsistent[""height""_f] = u16{3};
  std::fstream discard(""image_tile_bad.bin"",
                       std::ios::in | std::ios::out | std::ios::binary | std::ios::trunc);

  const auto rejected = s2s::stream_cast_be<image_tile>(discard, inconsistent);
  if(rejected.has_value())
    return 1;

  return rejected.error().failure_reason == s2s::error_reason::found_contradicting_length
    ? 0 : 1;
}
// docs-end
".
Definition t17 := "// Backs the constexpr example in docs/compile-time.md. The
// region between docs-begin and docs-end is compared against that fenced block
// by the doc_examples_match test, so edit them together or the check fails.
// docs-begin
#include ""s2s.hpp""

#include <array>
#include <cstddef>

using namespace s2s_literals;

using u8 = unsigned char;
using u32 = unsigned int;

// A constexpr stream is identified by deriving from s2s::constexpr_stream, and
// works on std::array rather than char* so it is usable in constant evaluation.
template <std::size_t N>
class memstream: s2s::constexpr_stream {
  std::array<u8, N>& buffer;
  std::size_t read_idx{0};
  bool ok{true};

public:
  constexpr explicit memstream(std::array<u8, N>& b): buffer(b) {}

  template <std::size_t dest_size>
  [[nodiscard]] constexpr auto read(std::array<char, dest_size>& dest,
                                    std::size_t size_to_read) -> memstream& {
    for(std::size_t i = 0; i < size_to_read; ++i) {
      if(read_idx >= N) {
        ok = false;
        return *this;
      }
      dest[i] = static_cast<char>(buffer[read_idx++]);
    }
    return *this;
  }

  [[nodiscard]] explicit constexpr operator bool() const { return ok; }
};

// A fixed-layout partition entry. Nothing here allocates, so the parsed value
// can be held in a constexpr variable and asserted on below.
using partition_entry =
  s2s::struct_field_list<
    s2s::basic_field<""start_lba"", u32, 4_B>,
    s2s::basic_field<""sector_count"", u32, 4_B>
  >;

constexpr auto parse_it() -> std::expected<partition_entry, s2s::cast_error> {
  std::array<u8, 8> buffer{0xde, 0xad, 0xbe, 0xef, 0xca, 0xfe, 0xd0, 0x0d};
  memstream<8> stream(buffer);
  return s2s::struct_cast_be<partition_entry>(stream);
}

// The parse, the validation and the field lookups all happen in the compiler.
constexpr auto result = parse_it();
static_assert(result);
static_assert((*result)[""start_lba""_f] == 0xdeadbeef);
static_assert((*result)[""sector_count""_f] == 0xcafed00d);

auto main() -> int {
  return 0;
}
// docs-end
".
Definition t18 := "// Backs the constraints example in docs/constraints.md. The region between docs-begin
// and docs-end is compared against that fenced block by the doc_examples_match
// test, so edit them together or the check fails.
// docs-begin
#include ""s2s.hpp""

#include <array>
#include <fstream>

using namespace s2s_literals;

using u8 = unsigned char;
using u16 = unsigned short;
using u32 = unsigned int;

// The fmt chunk of a WAV file. Most of what makes a fmt chunk valid is a
// constraint on a single field, so most of it is declared rather than checked.
using wav_format =
  s2s::struct_field_list<
    s2s::magic_byte_array<""chunk_id"", 4, std::array<u8, 4>{0x66, 0x6d, 0x74, 0x20}>,
    s2s::basic_field<""chunk_size"", u32, 4_B, s2s::eq{u32{16}}>,
    s2s::basic_field<""audio_format"", u16, 2_B, s2s::eq{u16{1}}>,
    s2s::basic_field<""channels"", u16, 2_B, s2s::any_of{u16{1}, u16{2}}>,
    s2s::basic_field<""sample_rate"", u32, 4_B, s2s::gte{u32{8000}}>,
    s2s::basic_field<""bits_per_sample"", u16, 2_B, s2s::any_of{u16{8}, u16{16}, u16{24}}>
  >;

// The same layout with the constraint axis left off every field.
using wav_format_unchecked =
  s2s::struct_field_list<
    s2s::magic_byte_array<""chunk_id"", 4, std::array<u8, 4>{0x66, 0x6d, 0x74, 0x20}>,
    s2s::basic_field<""chunk_size"", u32, 4_B>,
    s2s::basic_field<""audio_format"", u16, 2_B>,
    s2s::basic_field<""channels"", u16, 2_B>,
    s2s::basic_field<""sample_rate"", u32, 4_B>,
    s2s::basic_field<""bits_per_sample"", u16, 2_B>
  >;

auto main() -> int {
  // ""chunk_id"", ""chunk_size"" and ""audio_format"" are not assigned. Each is
  // constrained to eq, so the schema already fixes the value and the write
  // path takes it from there.
  wav_format fmt{};
  fmt[""channels""_f] = u16{2};
  fmt[""sample_rate""_f] = 44100u;
  fmt[""bits_per_sample""_f] = u16{16};

  std::fstream file(""wav_format.bin"",
                    std::ios::in | std::ios::out | std::ios::binary | std::ios::trunc);

  const auto accepted =
    s2s::stream_cast_be<wav_format>(file, fmt)
      .and_then([&file] {
        file.seekg(0);
        return s2s::struct_cast_be<wav_format>(file);
      })
      .transform([](const wav_format&) { return true; });

  if(!accepted.value_or(false))
    return 1;

  // Writing: the constraint is checked before the field's first byte is out.
  wav_format surround = fmt;
  surround[""channels""_f] = u16{6};
  std::fstream discard(""wav_format_bad.bin"",
                       std::ios::in | std::ios::out | std::ios::binary | std::ios::trunc);

  const auto refused = s2s::stream_cast_be<wav_format>(discard, surround);
  if(refused.has_value()
     || refused.error().failure_reason != s2s::error_reason::validation_failure
     || refused.error().failed_at != std::string_view{""channels""})
    return 1;

  // Reading: the same constraint rejects the same value coming off the wire.
  // The bytes have to exist first, so they are written through the unchecked
  // layout and parsed back through the checked one.
  wav_format_unchecked loose{};
  loose[""chunk_size""_f] = 16u;
  loose[""audio_format""_f] = u16{1};
  loose[""channels""_f] = u16{6};
  loose[""sample_rate""_f] = 44100u;
  loose[""bits_per_sample""_f] = u16{16};

  std::fstream on_disk(""wav_format_loose.bin"",
                       std::ios::in | std::ios::out | std::ios::binary | std::ios::trunc);

  const auto parsed =
    s2s::stream_cast_be<wav_format_unchecked>(on_disk, loose)
      .and_then([&on_disk] {
        on_disk.seekg(0);
        return s2s::struct_cast_be<wav_format>(on_disk);
      });

  if(parsed.has_value())
    return 1;

  return parsed.error().failure_reason == s2s::error_reason::validation_failure
      && parsed.error().failed_at == std::string_view{""channels""} ? 0 : 1;
}
// docs-end
".
Definition t19 := "// Backs the maybe/presence-deduction example in docs/schema/optional-and-variant.md. The region
// between docs-begin and docs-end is compared against that fenced block by the
// doc_examples_match test, so edit them together or the check fails.
// docs-begin
#include ""s2s.hpp""

#include <array>
#include <fstream>

using namespace s2s_literals;

using u8 = unsigned char;
using u16 = unsigned short;
using u32 = unsigned int;

// Bit 3 of the flags byte says an original-filename length follows. The
// predicate reads a field already parsed, which is why it must name it.
constexpr auto has_name = [](auto flags) { return (flags & 0x08u) != 0u; };

// A gzip member header, trimmed to the part that shows conditional presence.
using gzip_header =
  s2s::struct_field_list<
    s2s::magic_byte_array<""magic"", 2, std::array<u8, 2>{0x1f, 0x8b}>,
    s2s::basic_field<""method"", u8, 1_B>,
    s2s::basic_field<""flags"", u8, 1_B>,
    s2s::basic_field<""mtime"", u32, 4_B>,
    s2s::maybe<
      s2s::basic_field<""name_length"", u16, 2_B>,
      s2s::parse_if<has_name, ""flags"">
    >
  >;

auto round_trip(u8 flags, bool with_name, const char* path) -> bool {
  gzip_header header{};
  header[""method""_f] = u8{8};
  header[""flags""_f] = flags;
  header[""mtime""_f] = 0x5f000000u;
  if(with_name)
    header[""name_length""_f] = u16{12};

  std::fstream file(path, std::ios::in | std::ios::out | std::ios::binary | std::ios::trunc);

  return s2s::stream_cast_be<gzip_header>(file, header)
    .and_then([&file] {
      file.seekg(0);
      return s2s::struct_cast_be<gzip_header>(file);
    })
    .transform([with_name](const gzip_header& parsed) {
      // An absent optional is empty; a present one is dereferenced.
      return with_name ? *(parsed[""name_length""_f]) == 12 : true;
    })
    .value_or(false);
}

auto main() -> int {
  // FNAME set: the predicate says present, and the header supplies it.
  if(!round_trip(u8{0x08}, true, ""gzip_named.bin""))
    return 1;

  // FNAME clear: the predicate says absent, and the field occupies no bytes.
  if(!round_trip(u8{0x00}, false, ""gzip_plain.bin""))
    return 1;

  // Disagreement is caught: the flag promises a name length, the header has none.
  gzip_header bad{};
  bad[""flags""_f] = u8{0x08};
  std::fstream discard(""gzip_bad.bin"",
                       std::ios::in | std::ios::out | std::ios::binary | std::ios::trunc);

  const auto rejected = s2s::stream_cast_be<gzip_header>(discard, bad);
  if(rejected.has_value())
    return 1;

  return rejected.error().failure_reason == s2s::error_reason::validation_failure ? 0 : 1;
}
// docs-end
".
Definition t20 := "// Backs the worked example in docs/reading.md. The region
// between docs-begin and docs-end is compared against that fenced block by the
// doc_examples_match test, so edit them together or the check fails.
// docs-begin
#include ""s2s.hpp""

#include <array>
#include <fstream>

using namespace s2s_literals;

using u8 = unsigned char;
using u32 = unsigned int;

// The 14-byte header every BMP file starts with. BMP is a little-endian
// format, so it is read with struct_cast_le.
using bmp_header =
  s2s::struct_field_list<
    s2s::magic_byte_array<""signature"", 2, std::array<u8, 2>{0x42, 0x4d}>,
    s2s::basic_field<""file_size"", u32, 4_B>,
    s2s::basic_field<""reserved"", u32, 4_B>,
    s2s::basic_field<""pixel_offset"", u32, 4_B>
  >;

// 'B' 'M', then file_size, reserved and pixel_offset, each little-endian.
constexpr unsigned char header_bytes[] = {
  0x42, 0x4d,
  0x36, 0x00, 0x0c, 0x00,
  0x00, 0x00, 0x00, 0x00,
  0x36, 0x00, 0x00, 0x00
};

auto write_sample(const char* path, std::size_t count) -> bool {
  std::ofstream out(path, std::ios::out | std::ios::binary | std::ios::trunc);
  out.write(reinterpret_cast<const char*>(header_bytes),
            static_cast<std::streamsize>(count));
  return static_cast<bool>(out);
}

auto main() -> int {
  if(!write_sample(""sample.bmp"", sizeof(header_bytes)))
    return 1;

  std::ifstream file(""sample.bmp"", std::ios::in | std::ios::binary);

  const auto parsed =
    s2s::struct_cast_le<bmp_header>(file)
      .transform([](const bmp_header& header) {
        return header[""file_size""_f] == 0x000c0036 && header[""pixel_offset""_f] == 54;
      });

  if(!parsed.value_or(false))
    return 1;

  // A file that stops short reports which field ran out, not merely that one did.
  if(!write_sample(""truncated.bmp"", 8))
    return 1;

  std::ifstream short_file(""truncated.bmp"", std::ios::in | std::ios::binary);
  const auto failed = s2s::struct_cast_le<bmp_header>(short_file);
  if(failed.has_value())
    return 1;

  return failed.error().failure_reason == s2s::error_reason::buffer_exhaustion
      && failed.error().failed_at == std::string_view{""reserved""} ? 0 : 1;
}
// docs-end
".
Definition t21 := "// Backs the four-axes example in docs/schema/index.md. The region
// between docs-begin and docs-end is compared against that fenced block by the
// doc_examples_match test, so edit them together or the check fails.
// docs-begin
#include ""s2s.hpp""

#include <array>
#include <fstream>
#include <vector>

using namespace s2s_literals;

using u8 = unsigned char;
using u16 = unsigned short;
using u32 = unsigned int;

// A telemetry frame: a two-byte marker, the device that sent it, a protocol
// revision, and a run of samples whose count is carried on the wire.
using telemetry_frame =
  s2s::struct_field_list<
    s2s::magic_byte_array<""marker"", 2, std::array<u8, 2>{0xab, 0xcd}>,
    s2s::basic_field<""device_id"", u16, 2_B>,
    s2s::basic_field<""revision"", u8, 1_B, s2s::any_of{u8{1}, u8{2}}>,
    s2s::basic_field<""sample_count"", u32, 4_B>,
    s2s::vec_field<""samples"", u16, s2s::len_from_field<""sample_count"">>
  >;

auto main() -> int {
  telemetry_frame frame{};
  frame[""device_id""_f] = u16{0x2a};
  frame[""revision""_f] = u8{2};
  frame[""samples""_f] = std::vector<u16>{300, 301, 299, 302};
  // ""sample_count"" is not assigned: it is the size axis of ""samples"" resolved.

  std::fstream file(""telemetry_frame.bin"",
                    std::ios::in | std::ios::out | std::ios::binary | std::ios::trunc);

  // Every step yields an expected, so the steps chain instead of nesting. A
  // failure anywhere short-circuits and carries its cast_error to the end.
  const auto round_tripped =
    s2s::stream_cast_be<telemetry_frame>(file, frame)
      .and_then([&file] {
        // A file stream shares one position between reads and writes.
        file.seekg(0);
        return s2s::struct_cast_be<telemetry_frame>(file);
      })
      .transform([](const telemetry_frame& parsed) {
        return parsed[""samples""_f].size() == 4
            && parsed[""device_id""_f] == 0x2a
            && parsed[""samples""_f][2] == 299;
      });

  return round_tripped.value_or(false) ? 0 : 1;
}
// docs-end
".
Definition t22 := "// Backs the reference stream implementation in docs/streams.md.
// The region between docs-begin and docs-end is compared against that fenced
// block by the doc_examples_match test, so edit them together or the check
// fails.
// docs-begin
#include ""s2s.hpp""

#include <algorithm>
#include <array>
#include <cstddef>
#include <ios>
#include <vector>

using namespace s2s_literals;

using u8 = unsigned char;
using u32 = unsigned int;

// A complete stream, satisfying read_trait, write_trait and convertible_to_bool.
// Nothing else is required: no seeking, no exceptions, no std::ios base.
class byte_stream {
  std::vector<char> buffer;
  std::size_t read_pos{0};
  bool ok{true};

public:
  // read_trait: takes a raw destination and a count, returns *this by reference.
  auto read(char* dest, std::streamsize size_to_read) -> byte_stream& {
    const auto n = static_cast<std::size_t>(size_to_read);
    if(read_pos + n > buffer.size()) {
      ok = false;               // report exhaustion by going bad, not by throwing
      return *this;
    }
    std::copy_n(buffer.begin() + static_cast<std::ptrdiff_t>(read_pos), n, dest);
    read_pos += n;
    return *this;
  }

  // write_trait: takes a raw source and a count, returns *this by reference.
  auto write(const char* src, std::size_t size_to_write) -> byte_stream& {
    buffer.insert(buffer.end(), src, src + size_to_write);
    return *this;
  }

  // convertible_to_bool: the library tests the stream after every access.
  explicit operator bool() const { return ok; }
};

// A heartbeat frame, small enough that the stream is the interesting part.
using heartbeat =
  s2s::struct_field_list<
    s2s::magic_byte_array<""marker"", 2, std::array<u8, 2>{0x48, 0x42}>,
    s2s::basic_field<""sequence"", u32, 4_B>
  >;

static_assert(s2s::input_stream_like<byte_stream>);
static_assert(s2s::output_stream_like<byte_stream>);

auto main() -> int {
  heartbeat beat{};
  beat[""sequence""_f] = 0xdeadbeefu;

  byte_stream stream;

  const auto round_tripped =
    s2s::stream_cast_be<heartbeat>(stream, beat)
      .and_then([&stream] { return s2s::struct_cast_be<heartbeat>(stream); })
      .transform([](const heartbeat& parsed) {
        return parsed[""sequence""_f] == 0xdeadbeefu;
      });

  if(!round_tripped.value_or(false))
    return 1;

  // Reading past the end sets the bad flag, which surfaces as buffer_exhaustion.
  const auto overrun = s2s::struct_cast_be<heartbeat>(stream);
  if(overrun.has_value())
    return 1;

  return overrun.error().failure_reason == s2s::error_reason::buffer_exhaustion ? 0 : 1;
}
// docs-end
".
Definition t23 := "// Backs the variance/type-deduction example in docs/schema/optional-and-variant.md. The region between
// docs-begin and docs-end is compared against that fenced block by the
// doc_examples_match test, so edit them together or the check fails.
// docs-begin
#include ""s2s.hpp""

#include <fstream>
#include <variant>

using namespace s2s_literals;

using u8 = unsigned char;
using u32 = unsigned int;
using i32 = int;

// Selection by discriminant. A tag-length-value record carries the tag on the
// wire, and it says how the value should be read.
using tlv_record =
  s2s::struct_field_list<
    s2s::basic_field<""tag"", u8, 1_B>,
    s2s::variance<
      ""value"",
      s2s::type<
        s2s::match_field<""tag"">,
        s2s::type_switch<
          s2s::match_case<1, s2s::as_trivial<u32, 4_B>>,
          s2s::match_case<2, s2s::as_trivial<i32, 4_B>>
        >
      >
    >
  >;

// Selection by predicate. Nothing on the wire names the payload shape; it
// follows from a length already read, the way formats inline small values and
// reference large ones.
constexpr auto fits_inline = [](auto length) { return length <= 4u; };
constexpr auto needs_reference = [](auto length) { return length > 4u; };

using extent_record =
  s2s::struct_field_list<
    s2s::basic_field<""length"", u32, 4_B>,
    s2s::variance<
      ""payload"",
      s2s::type<
        s2s::type_if_else<
          s2s::branch<
            s2s::predicate<fits_inline, ""length"">,
            s2s::as_trivial<u32, 4_B>
          >,
          s2s::branch<
            s2s::predicate<needs_reference, ""length"">,
            s2s::as_trivial<i32, 4_B>
          >
        >
      >
    >
  >;

auto main() -> int {
  // ""tag"" is never assigned: it is derived from the alternative held.
  tlv_record record{};
  record[""value""_f] = i32{-40};

  std::fstream tlv(""tlv_record.bin"",
                   std::ios::in | std::ios::out | std::ios::binary | std::ios::trunc);

  const auto tlv_ok =
    s2s::stream_cast_be<tlv_record>(tlv, record)
      .and_then([&tlv] {
        tlv.seekg(0);
        return s2s::struct_cast_be<tlv_record>(tlv);
      })
      .transform([](const tlv_record& parsed) {
        return parsed[""tag""_f] == 2 && std::get<i32>(parsed[""value""_f]) == -40;
      });

  if(!tlv_ok.value_or(false))
    return 1;

  // ""length"" stays assignable: a predicate has no inverse, so it is verified
  // against the alternative held rather than derived from it.
  extent_record extent{};
  extent[""length""_f] = 4u;
  extent[""payload""_f] = u32{0xfeedface};

  std::fstream ext(""extent_record.bin"",
                   std::ios::in | std::ios::out | std::ios::binary | std::ios::trunc);

  const auto extent_ok =
    s2s::stream_cast_be<extent_record>(ext, extent)
      .and_then([&ext] {
        ext.seekg(0);
        return s2s::struct_cast_be<extent_record>(ext);
      })
      .transform([](const extent_record& parsed) {
        return std::get<u32>(parsed[""payload""_f]) == 0xfeedface;
      });

  if(!extent_ok.value_or(false))
    return 1;

  // The held alternative contradicts the branch the predicates select.
  extent_record inconsistent{};
  inconsistent[""length""_f] = 64u;
  inconsistent[""payload""_f] = u32{1};
  std::fstream discard(""extent_bad.bin"",
                       std::ios::in | std::ios::out | std::ios::binary | std::ios::trunc);

  const auto rejected = s2s::stream_cast_be<extent_record>(discard, inconsistent);
  if(rejected.has_value())
    return 1;

  return rejected.error().failure_reason == s2s::error_reason::validation_failure ? 0 : 1;
}
// docs-end
".
Definition t24 := "// Backs the worked example in docs/writing.md. The region
// between docs-begin and docs-end is compared against that fenced block by the
// doc_examples_match test, so edit them together or the check fails.
//
// doc_example.cpp is the other half of this pair: it verifies the prose claims
// the Writing section makes about derived fields, which are asserted rather
// than shown and so are not part of any fenced block.
// docs-begin
#include ""s2s.hpp""

#include <array>
#include <fstream>
#include <string>

using namespace s2s_literals;

using u8 = unsigned char;
using u16 = unsigned short;

// A length-prefixed log record. The length is not data anyone supplies; it is
// a consequence of the message.
using log_record =
  s2s::struct_field_list<
    s2s::magic_byte_array<""marker"", 2, std::array<u8, 2>{0x4c, 0x47}>,
    s2s::basic_field<""message_length"", u16, 2_B>,
    s2s::str_field<""message"", s2s::len_from_field<""message_length"">>
  >;

auto main() -> int {
  log_record record{};
  record[""message""_f] = std::string(""disk nearly full"");
  // Neither ""marker"" nor ""message_length"" is assigned. The marker's value is
  // fixed by its constraint; the length is derived from message.size().

  std::fstream file(""log_record.bin"",
                    std::ios::in | std::ios::out | std::ios::binary | std::ios::trunc);

  const auto round_tripped =
    s2s::stream_cast_be<log_record>(file, record)
      .and_then([&file] {
        // A file stream shares one position between reads and writes.
        file.seekg(0);
        return s2s::struct_cast_be<log_record>(file);
      })
      .transform([](const log_record& parsed) {
        return parsed[""message""_f].size() == 16
            && parsed[""message""_f] == ""disk nearly full"";
      });

  return round_tripped.value_or(false) ? 0 : 1;
}
// docs-end
".
Definition t25 := "// Backs the read-direction example in README.md. The region between docs-begin
// and docs-end is compared against that fenced block by the doc_examples_match
// test, so edit them together or the check fails.
// docs-begin
#include ""s2s.hpp""

#include <array>
#include <fstream>
#include <print>
#include <vector>

using namespace s2s_literals;

using u8 = unsigned char;
using u16 = unsigned short;
using u32 = unsigned int;

// A firmware image: a two-byte marker, a version, and a payload whose length
// is carried on the wire just before it.
using firmware_image =
  s2s::struct_field_list<
    s2s::magic_byte_array<""marker"", 2, std::array<u8, 2>{0x46, 0x57}>,
    s2s::basic_field<""version"", u16, 2_B>,
    s2s::basic_field<""payload_length"", u32, 4_B>,
    s2s::vec_field<""payload"", u8, s2s::len_from_field<""payload_length"">>
  >;

auto main() -> int {
  std::ifstream image(""firmware.bin"", std::ios::in | std::ios::binary);

  const auto res =
    s2s::struct_cast_be<firmware_image>(image)
      .transform([](const firmware_image& fields){
        std::println(""version={} payload={} bytes"",
                     fields[""version""_f], fields[""payload""_f].size());
        return fields;
      }).transform_error([](const s2s::cast_error& err){
        std::println(""failure_reason={} failed_at={}"",
                     static_cast<int>(err.failure_reason), err.failed_at);
        return err;
      });

  return res.has_value() ? 0 : 1;
}
// docs-end
".
Definition t26 := "// Backs the write-direction example in README.md. The region between the
// docs-begin and docs-end markers is compared against that fenced block by the
// doc_examples_match test, so edit them together or the check fails.
// docs-begin
#include ""s2s.hpp""

#include <array>
#include <fstream>
#include <vector>

using namespace s2s_literals;

using u8 = unsigned char;
using u16 = unsigned short;
using u32 = unsigned int;

// One schema, both directions.
using firmware_image =
  s2s::struct_field_list<
    s2s::magic_byte_array<""marker"", 2, std::array<u8, 2>{0x46, 0x57}>,
    s2s::basic_field<""version"", u16, 2_B>,
    s2s::basic_field<""payload_length"", u32, 4_B>,
    s2s::vec_field<""payload"", u8, s2s::len_from_field<""payload_length"">>
  >;

auto main() -> int {
  firmware_image image{};
  image[""version""_f] = u16{1};
  image[""payload""_f] = std::vector<u8>{0xde, 0xad, 0xbe, 0xef};
  // ""payload_length"" cannot be named at all. It is derived from payload.size().

  std::fstream file(""firmware_out.bin"",
                    std::ios::in | std::ios::out | std::ios::binary | std::ios::trunc);

  // Each step returns an expected, so writing and reading back chain into one
  // expression; a failure at either end carries its cast_error through.
  const auto round_tripped =
    s2s::stream_cast_be<firmware_image>(file, image)
      .and_then([&file] {
        // A file stream shares one position between reads and writes.
        file.seekg(0);
        return s2s::struct_cast_be<firmware_image>(file);
      })
      .transform([](const firmware_image& parsed) {
        return parsed[""payload""_f].size() == 4;
      });

  return round_tripped.value_or(false) ? 0 : 1;
}
// docs-end
".

Definition tree : list (string * string) := [
  ("README.md", t00);
  ("docs/compile-time.md", t01);
  ("docs/constraints.md", t02);
  ("docs/errors.md", t03);
  ("docs/index.md", t04);
  ("docs/reading.md", t05);
  ("docs/reference.md", t06);
  ("docs/schema/computed-values.md", t07);
  ("docs/schema/index.md", t08);
  ("docs/schema/optional-and-variant.md", t09);
  ("docs/schema/size-axis.md", t10);
  ("docs/streams.md", t11);
  ("docs/struct.md", t12);
  ("docs/writing.md", t13);
  ("docs/mkdocs.yml", t14);
  ("test/doc_examples/doc_example.cpp", t15);
  ("test/doc_examples/guide_computed_example.cpp", t16);
  ("test/doc_examples/guide_constexpr_example.cpp", t17);
  ("test/doc_examples/guide_constraints_example.cpp", t18);
  ("test/doc_examples/guide_optional_example.cpp", t19);
  ("test/doc_examples/guide_reading_example.cpp", t20);
  ("test/doc_examples/guide_schema_example.cpp", t21);
  ("test/doc_examples/guide_stream_example.cpp", t22);
  ("test/doc_examples/guide_variance_example.cpp", t23);
  ("test/doc_examples/guide_writing_example.cpp", t24);
  ("test/doc_examples/readme_read_example.cpp", t25);
  ("test/doc_examples/readme_roundtrip_example.cpp", t26)].
