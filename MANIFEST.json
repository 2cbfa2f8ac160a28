{
 "claims": [
  {
   "property": "C01",
   "status": "proved",
   "theorems": [
    "C01_read_sound"
   ],
   "note": ""
  },
  {
   "property": "C02",
   "status": "proved",
   "theorems": [
    "C02_read_complete"
   ],
   "note": ""
  },
  {
   "property": "C03",
   "status": "proved",
   "theorems": [
    "C03_round_trip",
    "C03_round_trip_steady",
    "C03_write_encodes",
    "C03_exact",
    "C03_narrow_refuted",
    "C03_ceiling_refuted",
    "C03_stale_refuted"
   ],
   "note": "for values that survive their declared width and ceilings, told-apart match values, and callables that do not read replaced slots; each condition refuted when dropped"
  },
  {
   "property": "C04",
   "status": "proved",
   "theorems": [
    "C04_exact",
    "C04_read_then_write",
    "C04_write_valid",
    "C04_wide_eq_refuted",
    "C04_string_tail_refuted",
    "C04_negative_case_refuted",
    "C04_narrow_length_refuted"
   ],
   "note": "for reversible schemas (length fields no wider than size_t with their low bytes on the wire, non-negative match values, eq with one solution); each condition refuted when dropped"
  },
  {
   "property": "C05",
   "status": "proved",
   "theorems": [
    "C05_trailing_bytes",
    "C05_trailing_bytes_error"
   ],
   "note": ""
  },
  {
   "property": "C06",
   "status": "proved",
   "theorems": [
    "C06_truncation"
   ],
   "note": ""
  },
  {
   "property": "C07",
   "status": "proved",
   "theorems": [
    "C07_read_failed_at",
    "C07_write_failed_at"
   ],
   "note": ""
  },
  {
   "property": "C08",
   "status": "proved",
   "theorems": [
    "C08_read_vocabulary",
    "C08_write_vocabulary"
   ],
   "note": ""
  },
  {
   "property": "C09",
   "status": "proved",
   "theorems": [
    "C09_allocation_bounded"
   ],
   "note": ""
  },
  {
   "property": "C10",
   "status": "proved",
   "theorems": [
    "C10_excessive_length_exact",
    "C10_excessive_length_records",
    "C10_default_off",
    "C10_default_off_refuted"
   ],
   "note": "with the default at SIZE_MAX byte containers are never refused; larger elements still are when the byte count does not fit (C10_default_off_refuted)"
  },
  {
   "property": "C11",
   "status": "proved",
   "theorems": [
    "C11_constraints_hold"
   ],
   "note": ""
  },
  {
   "property": "C12",
   "status": "proved",
   "theorems": [
    "C12_exact",
    "C12_comparison_exact",
    "C12_any_of_exact",
    "C12_eq_congruent",
    "C12_unrestricted_refuted"
   ],
   "note": "exact when the literal's type represents the wire value; the unrestricted claim is refuted and C12_exact shows the condition necessary"
  },
  {
   "property": "C13",
   "status": "proved",
   "theorems": [
    "C13_C28_read_same",
    "C13_C28_write_same"
   ],
   "note": ""
  },
  {
   "property": "C14",
   "status": "proved",
   "theorems": [
    "C14_read_layout",
    "C14_write_layout"
   ],
   "note": ""
  },
  {
   "property": "C15",
   "status": "proved",
   "theorems": [
    "C15_read_narrow",
    "C15_read_little",
    "C15_write_narrow",
    "C15_round_trip",
    "C15_big_refuted",
    "C15_truncated_refuted",
    "C15_sign_refuted"
   ],
   "note": "what the n bytes carry is proved for every width and byte order; the claims that a fitting value survives big endian, that an unfitting one is rejected and that the sign is kept are refuted"
  },
  {
   "property": "C16",
   "status": "proved",
   "theorems": [
    "C16_exact",
    "C16_C27_length_on_wire",
    "C16_big_endian_narrow_refuted"
   ],
   "note": "declared width equal to the type's, or little-endian wire; refuted for a narrow length field in big endian; C16_exact: wrong in every other case but the empty container"
  },
  {
   "property": "C17",
   "status": "proved",
   "theorems": [
    "C17_negative",
    "C17_wide",
    "C17_discriminant_on_wire",
    "C17_mixed_cases_refuted"
   ],
   "note": "for non-negative match values the comparison tells apart; refuted for mixed-type match values; negative ones cannot be written below the width of size_t (C17_negative)"
  },
  {
   "property": "C18",
   "status": "proved",
   "theorems": [
    "C18_contradicting_lengths",
    "C18_C26_contradiction_reason"
   ],
   "note": ""
  },
  {
   "property": "C19",
   "status": "proved",
   "theorems": [
    "C19_exact",
    "C19_pinned_on_wire",
    "C19_pinned_holds",
    "C19_unrepresentable_refuted"
   ],
   "note": "the pinned value goes out unconditionally; it passes its own constraint when the literal is a value of the field's type, refuted otherwise; C19_exact says when for integers"
  },
  {
   "property": "C20",
   "status": "proved",
   "theorems": [
    "C20_unassignable_irrelevant",
    "C20_stale_slot_refuted"
   ],
   "note": "when no callable reads an overwritten slot; refuted otherwise"
  },
  {
   "property": "C21",
   "status": "proved",
   "theorems": [
    "C21_read_optional",
    "C21_write_presence"
   ],
   "note": ""
  },
  {
   "property": "C22",
   "status": "proved",
   "theorems": [
    "C22_read_first_match",
    "C22_write_alternative"
   ],
   "note": ""
  },
  {
   "property": "C23",
   "status": "proved",
   "theorems": [
    "C23_nothing_of_the_failed_field",
    "C23_records_refuted"
   ],
   "note": "for fields without records inside; refuted for record fields"
  },
  {
   "property": "C24",
   "status": "proved",
   "theorems": [
    "C24_prefix"
   ],
   "note": ""
  },
  {
   "property": "C25",
   "status": "proved",
   "theorems": [
    "C25_computed_length"
   ],
   "note": ""
  },
  {
   "property": "C26",
   "status": "proved",
   "theorems": [
    "C18_C26_contradiction_reason",
    "C26_conditional_length",
    "C26_conditional_and_derived"
   ],
   "note": ""
  },
  {
   "property": "C27",
   "status": "proved",
   "theorems": [
    "C16_C27_length_on_wire",
    "C27_misfit",
    "C27_verified_length_refuted"
   ],
   "note": "for derived lengths; refuted for lengths that are only verified"
  },
  {
   "property": "C28",
   "status": "proved",
   "theorems": [
    "C13_C28_read_same",
    "C13_C28_write_same"
   ],
   "note": ""
  },
  {
   "property": "C29",
   "status": "proved",
   "theorems": [
    "C29_stringstream",
    "C29_stream_is_bytes",
    "C29_two_streams",
    "C29_byte_stream",
    "C29_memstream",
    "C29_doc_memstream"
   ],
   "note": "byte_stream and both memstreams shown to conform"
  },
  {
   "property": "C30",
   "status": "proved",
   "theorems": [
    "C30_no_undefined_behaviour",
    "C30_exact",
    "C30_magic_string_refuted",
    "C30_bool_refuted",
    "C30_C42_write_total"
   ],
   "note": "for schemas without bool slots, fixed_string comparisons and integer literals on floating-point fields; each exclusion is refuted by a witness, and C30_exact shows the guard exact for a single constant-size field"
  },
  {
   "property": "C31",
   "status": "proved",
   "theorems": [
    "C31_unique",
    "C31_accepted_ids",
    "C31_accepted_values",
    "C31_match_values"
   ],
   "note": "uniqueness of the C++ types of a variance's alternatives is covered by the generic statement over type ids; the model does not identify C++ types"
  },
  {
   "property": "C32",
   "status": "proved",
   "theorems": [
    "C32_accepted_only",
    "C32_accepted_iff",
    "C32_accepted_exact",
    "C32_accepted_wf",
    "C32_wf_accepted",
    "C32_self_refuted",
    "C32_empty_refuted"
   ],
   "note": "accepted iff every use is earlier or the field's own, for non-empty names; the strict claim is refuted by a self reference and by empty names"
  },
  {
   "property": "C33",
   "status": "proved",
   "theorems": [
    "C33_mutable",
    "C33_const_ref",
    "C33_hidden",
    "C33_const_object",
    "C33_capacity",
    "C33_assignable_written",
    "C33_refused_ignored",
    "C33_scans_agree",
    "C33_empty_refuted"
   ],
   "note": "for non-empty names and within the capacities, beyond which the access is ill formed; the empty name is refuted"
  },
  {
   "property": "C34",
   "status": "proved",
   "theorems": [
    "C34_order",
    "C34_twice",
    "C34_scalar",
    "C34_container",
    "C34_rejected",
    "C34_bound_independent"
   ],
   "note": ""
  },
  {
   "property": "C35",
   "status": "proved",
   "theorems": [
    "C35_read_fixed_size",
    "C35_read_no_allocation",
    "C35_write_fixed_size"
   ],
   "note": ""
  },
  {
   "property": "C36",
   "status": "proved",
   "theorems": [
    "C36_read_record",
    "C36_read_array",
    "C36_read_vector",
    "C36_write_records"
   ],
   "note": ""
  },
  {
   "property": "C37",
   "status": "proved",
   "theorems": [
    "C37_append_write",
    "C37_append_write_refuted",
    "C37_append",
    "C37_damage"
   ],
   "note": "writing: for appended fields that take nothing from the existing ones; refuted otherwise"
  },
  {
   "property": "C38",
   "status": "proved",
   "theorems": [
    "C38_lookup",
    "C38_undeclared",
    "C38_capacity",
    "C38_empty_refuted"
   ],
   "note": "for non-empty names; the empty name finds the table's padding, refuted"
  },
  {
   "property": "C39",
   "status": "proved",
   "theorems": [
    "C39_search",
    "C39_sequence",
    "C39_capacity"
   ],
   "note": "the capacity is 1025 types; one more is ill formed"
  },
  {
   "property": "C40",
   "status": "proved",
   "theorems": [
    "C40_count",
    "C40_count_exact",
    "C40_wrap_refuted"
   ],
   "note": "when the length field is no wider than size_t; the count is the value modulo size_t otherwise, refuted on a 32-bit size_t"
  },
  {
   "property": "C41",
   "status": "proved",
   "theorems": [
    "C41_magic_string",
    "C41_outcome",
    "C41_in_schema",
    "C41_unterminated_refuted"
   ],
   "note": "for strings without an embedded NUL; bytes without a terminator are undefined behaviour, refuted"
  },
  {
   "property": "C42",
   "status": "proved",
   "theorems": [
    "C42_read_not_stuck",
    "C42_accepted",
    "C30_C42_write_total"
   ],
   "note": ""
  },
  {
   "property": "C43",
   "status": "proved",
   "theorems": [
    "C43_sorts"
   ],
   "note": ""
  },
  {
   "property": "C44",
   "status": "proved",
   "theorems": [
    "C44_conversion",
    "C44_to_bool",
    "C44_equality",
    "C44_equality_exact",
    "C44_equality_signed",
    "C44_mixed_signs_refuted"
   ],
   "note": "the claim without a sign guard is refuted by -1 and 0xFFFFFFFF"
  },
  {
   "property": "C45",
   "status": "proved",
   "theorems": [
    "C45_memory"
   ],
   "note": "Counts the resizes; the copies made afterwards are in C112_bound."
  },
  {
   "property": "C46",
   "status": "proved",
   "theorems": [
    "C46_requests",
    "C46_bytes"
   ],
   "note": ""
  },
  {
   "property": "C47",
   "status": "proved",
   "theorems": [
    "C47_read",
    "C47_read_only",
    "C47_unambiguous",
    "C47_write_then_read"
   ],
   "note": "writing needs the guards of C03: lengths fit their fields and are in sync"
  },
  {
   "property": "C48",
   "status": "proved",
   "theorems": [
    "C48_open",
    "C48_closed",
    "C48_open_sound",
    "C48_closed_sound",
    "C48_lower_bound",
    "C48_overlap_refuted",
    "C48_adjacent_refuted"
   ],
   "note": "for ranges apart from each other; refuted for overlapping ones; the code itself cannot be instantiated (finding in DESIGN.md)"
  },
  {
   "property": "C49",
   "status": "proved",
   "theorems": [
    "C49_vector",
    "C49_set",
    "C49_once",
    "C49_map_lookup",
    "C49_map_order",
    "C49_find",
    "C49_equal_ranges"
   ],
   "note": "lookup of the empty key needs a full table"
  },
  {
   "property": "C51",
   "status": "proved",
   "theorems": [
    "C51_stringstream",
    "C51_byte_stream",
    "C51_memstream"
   ],
   "note": "byte_stream: positions fit size_t"
  },
  {
   "property": "C50",
   "status": "proved",
   "theorems": [
    "C50_success",
    "C50_failure",
    "C50_decided"
   ],
   "note": ""
  },
  {
   "property": "C52",
   "status": "proved",
   "theorems": [
    "C52_success",
    "C52_failure",
    "C52_decided"
   ],
   "note": "the failure half is about schemas that type check"
  },
  {
   "property": "C53",
   "status": "proved",
   "theorems": [
    "C53_unambiguous",
    "C53_selected",
    "C53_size_unambiguous",
    "C53_size_found",
    "C53_no_size"
   ],
   "note": ""
  },
  {
   "property": "C54",
   "status": "proved",
   "theorems": [
    "C54_descriptor",
    "C54_tag",
    "C54_maybe",
    "C54_maybe_reader",
    "C54_variance",
    "C54_descriptor_refuted"
   ],
   "note": "the unguarded claim is refuted (C54_descriptor_refuted); proved with the exact guard"
  },
  {
   "property": "C55",
   "status": "proved",
   "theorems": [
    "C55_dispatch",
    "C55_maybe",
    "C55_union",
    "C55_covered",
    "C55_descriptor"
   ],
   "note": ""
  },
  {
   "property": "C56",
   "status": "proved",
   "theorems": [
    "C56_read",
    "C56_write",
    "C56_always_refuted"
   ],
   "note": "that every accepted field can be cast is refuted (C56_always_refuted); proved with the exact guard"
  },
  {
   "property": "C57",
   "status": "proved",
   "theorems": [
    "C57_choices",
    "C57_assign"
   ],
   "note": ""
  },
  {
   "property": "C58",
   "status": "proved",
   "theorems": [
    "C58_streams",
    "C58_read",
    "C58_write",
    "C58_always_refuted"
   ],
   "note": "the unguarded claim is refuted (C58_always_refuted); proved with the exact guard"
  },
  {
   "property": "C59",
   "status": "proved",
   "theorems": [
    "C59_switch_reads",
    "C59_accepted_refuted"
   ],
   "note": "the unguarded claim is refuted (C59_accepted_refuted); proved with the exact guard"
  },
  {
   "property": "C60",
   "status": "proved",
   "theorems": [
    "C60_position",
    "C60_streams"
   ],
   "note": ""
  },
  {
   "property": "C61",
   "status": "proved",
   "theorems": [
    "C61_ordinary",
    "C61_magic",
    "C61_magic_refuted"
   ],
   "note": "the converse for magic_number is refuted without the width guard (C61_magic_refuted)"
  },
  {
   "property": "C62",
   "status": "proved",
   "theorems": [
    "C62_containers_only",
    "C62_kept"
   ],
   "note": ""
  },
  {
   "property": "C63",
   "status": "proved",
   "theorems": [
    "C63_maybe",
    "C63_base",
    "C63_union",
    "C63_maybe_refuted"
   ],
   "note": "the unguarded claim is refuted (C63_maybe_refuted); proved with the exact condition"
  },
  {
   "property": "C64",
   "status": "proved",
   "theorems": [
    "C64_usable",
    "C64_exact",
    "C64_concepts",
    "C64_gte_refuted",
    "C64_eq_refuted"
   ],
   "note": "two entries of the documented table are refuted (C64_gte_refuted, C64_eq_refuted); proved for all others"
  },
  {
   "property": "C65",
   "status": "proved",
   "theorems": [
    "C65_all_are_same",
    "C65_any_of",
    "C65_names",
    "C65_optional",
    "C65_optional_value",
    "C65_front",
    "C65_nullopt_inverted",
    "C65_nullopt_refuted"
   ],
   "note": "comparison with nullopt refuted (C65_nullopt_refuted)"
  },
  {
   "property": "C66",
   "status": "proved",
   "theorems": [
    "C66_mirror",
    "C66_float",
    "C66_refused",
    "C66_mirror_refuted"
   ],
   "note": "mirroring without a guard is refuted (C66_mirror_refuted)"
  },
  {
   "property": "C67",
   "status": "proved",
   "theorems": [
    "C67_accepts",
    "C67_errors",
    "C67_progress",
    "C67_refuses"
   ],
   "note": ""
  },
  {
   "property": "C68",
   "status": "proved",
   "theorems": [
    "C68_read",
    "C68_write",
    "C68_wide_refuted"
   ],
   "note": "multi-byte numbers refute the unguarded form (C68_wide_refuted)"
  },
  {
   "property": "C69",
   "status": "proved",
   "theorems": [
    "C69_size",
    "C69_consumed"
   ],
   "note": ""
  },
  {
   "property": "C70",
   "status": "proved",
   "theorems": [
    "C70_unreferenced",
    "C70_referenced_refuted"
   ],
   "note": "referenced fields refute the unguarded form (C70_referenced_refuted)"
  },
  {
   "property": "C71",
   "status": "proved",
   "theorems": [
    "C71_enough",
    "C71_stream",
    "C71_only",
    "C71_tight_refuted"
   ],
   "note": "the bound is attained (C71_tight_refuted: one byte less is not enough)"
  },
  {
   "property": "C72",
   "status": "proved",
   "theorems": [
    "C72_read_fails_stream",
    "C72_failed_read",
    "C72_first_field",
    "C72_write_fails_stream",
    "C72_failed_write",
    "C72_byte_stream",
    "C72_memstream",
    "C72_doc_memstream",
    "C72_stringstream",
    "C72_other_errors_refuted",
    "C72_unnoticed_refuted"
   ],
   "note": "other errors leave the stream good, empty vectors may go unnoticed (C72_other_errors_refuted, C72_unnoticed_refuted)"
  },
  {
   "property": "C73",
   "status": "proved",
   "theorems": [
    "C73_injective",
    "C73_normal",
    "C73_narrow_refuted"
   ],
   "note": "narrow fields refute the unguarded form (C73_narrow_refuted)"
  },
  {
   "property": "C74",
   "status": "proved",
   "theorems": [
    "C74_meaning",
    "C74_parts",
    "C74_trichotomy",
    "C74_transitive",
    "C74_nan_incomparable",
    "C74_equal_bits",
    "C74_order_bits"
   ],
   "note": ""
  },
  {
   "property": "C75",
   "status": "proved",
   "theorems": [
    "C75_no_nan",
    "C75_pinned",
    "C75_signed_zero_refuted",
    "C75_nan_literal_refuted"
   ],
   "note": "round trip of signed zeros and of NaN literals refuted (C75_signed_zero_refuted, C75_nan_literal_refuted)"
  },
  {
   "property": "C76",
   "status": "proved",
   "theorems": [
    "C76_written",
    "C76_concept",
    "C76_selection",
    "C76_variance",
    "C76_dependencies",
    "C76_discriminants",
    "C76_model",
    "C76_leads",
    "C76_modelled",
    "C76_placeholder_refuted",
    "C76_distinct_refuted"
   ],
   "note": "the concept alone and the separation of match values are refuted (C76_placeholder_refuted, C76_distinct_refuted)"
  },
  {
   "property": "C77",
   "status": "proved",
   "theorems": [
    "C77_read",
    "C77_write",
    "C77_merged_refuted"
   ],
   "note": "merging names refutes the unguarded form (C77_merged_refuted)"
  },
  {
   "property": "C78",
   "status": "proved",
   "theorems": [
    "C78_read",
    "C78_write",
    "C78_wider_refuted",
    "C78_match_refuted"
   ],
   "note": "the converse and large match values are refuted (C78_wider_refuted, C78_match_refuted)"
  },
  {
   "property": "C79",
   "status": "proved",
   "theorems": [
    "C79_write",
    "C79_declared"
   ],
   "note": ""
  },
  {
   "property": "C80",
   "status": "proved",
   "theorems": [
    "C80_calls",
    "C80_prefix",
    "C80_bytes"
   ],
   "note": ""
  },
  {
   "property": "C81",
   "status": "proved",
   "theorems": [
    "C81_asks"
   ],
   "note": ""
  },
  {
   "property": "C82",
   "status": "proved",
   "theorems": [
    "C82_read",
    "C82_write",
    "C82_read_pure",
    "C82_write_pure",
    "C82_throw",
    "C82_throw_write"
   ],
   "note": ""
  },
  {
   "property": "C83",
   "status": "proved",
   "theorems": [
    "C83_read"
   ],
   "note": ""
  },
  {
   "property": "C84",
   "status": "proved",
   "theorems": [
    "C84_write",
    "C84_refuted"
   ],
   "note": "C84_refuted: a predicate that changes its mind makes a write succeed whose length field does not count the elements; excluded by C82_write when it answers like a function."
  },
  {
   "property": "C85",
   "status": "proved",
   "theorems": [
    "C85_fresh",
    "C85_types",
    "C85_keeps",
    "C85_enough",
    "C85_messages",
    "C85_edit",
    "C85_refuted",
    "C85_records_refuted"
   ],
   "note": "C85_refuted: if a predicate reads a length field, a message that can be read may be out of reach of every program. C85_records_refuted: contrary to docs/schema/optional-and-variant.md:160, a vector of records as union alternative can be written."
  },
  {
   "property": "C86",
   "status": "proved",
   "theorems": [
    "C86_asks",
    "C86_all"
   ],
   "note": "Both directions: what is asked, and that nothing more is required for success."
  },
  {
   "property": "C87",
   "status": "proved",
   "theorems": [
    "C87_given",
    "C87_all",
    "C87_iff"
   ],
   "note": "Strengthens C83 by the bytes and by the converse."
  },
  {
   "property": "C88",
   "status": "proved",
   "theorems": [
    "C88_stops",
    "C88_all",
    "C88_iff",
    "C88_short"
   ],
   "note": "The analogue of C52 and C60 for arbitrary user code, both directions."
  },
  {
   "property": "C89",
   "status": "proved",
   "theorems": [
    "C89_halts",
    "C89_all",
    "C89_iff",
    "C89_refused"
   ],
   "note": "The analogue of the failing half of C50 for arbitrary user code, both directions."
  },
  {
   "property": "C90",
   "status": "proved",
   "theorems": [
    "C90_write",
    "C90_write_all",
    "C90_read",
    "C90_read_all"
   ],
   "note": "Whole exchanges are those of C86-C89."
  },
  {
   "property": "C91",
   "status": "proved",
   "theorems": [
    "C91_ids",
    "C91_value",
    "C91_type",
    "C91_only",
    "C91_stale"
   ],
   "note": "Types are numbers, the compiler state a list of ids with types; C39 gives the search. Finding 36."
  },
  {
   "property": "C92",
   "status": "proved",
   "theorems": [
    "C92_array",
    "C92_access"
   ],
   "note": "The class is not used by the library."
  },
  {
   "property": "C93",
   "status": "proved",
   "theorems": [
    "C93_read",
    "C93_write"
   ],
   "note": "Both schemas accepted implies that the fields moved refer to each other only and nothing else refers to them."
  },
  {
   "property": "C94",
   "status": "proved",
   "theorems": [
    "C94_terminates",
    "C94_single",
    "C94_preprocessed",
    "C94_std",
    "C94_cycle_lost",
    "C94_cycle_refuted"
   ],
   "note": "Lines are includes or code; the regular expressions and the file system are not modelled. The model run on the includes of the repository gives the order of single_header/s2s.hpp. Finding 37."
  },
  {
   "property": "C95",
   "status": "proved",
   "theorems": [
    "C95_read",
    "C95_valid",
    "C95_write",
    "C95_explicit"
   ],
   "note": "The write half asks that every eq pin admits one value (as C04 does); the named forms need more (C04), see the example with a negative match value."
  },
  {
   "property": "C96",
   "status": "proved",
   "theorems": [
    "C96_order",
    "C96_total",
    "C96_exclusive",
    "C96_total_refuted",
    "C96_bytes",
    "C96_any",
    "C96_read"
   ],
   "note": "C96_total_refuted: with NaNs lte is not the opposite of gt. gte does not admit arrays (C64)."
  },
  {
   "property": "C97",
   "status": "proved",
   "theorems": [
    "C97_write",
    "C97_read",
    "C97_roundtrip",
    "C97_messages",
    "C97_rewrite",
    "C97_retry",
    "C97_failed_read",
    "C97_failed_write",
    "C97_no_seek_refuted"
   ],
   "note": "std::fstream is modelled from the standard: read, write, seekg, clear; a switch between reading and writing without positioning is left open."
  },
  {
   "property": "C98",
   "status": "proved",
   "theorems": [
    "C98_trivial_read",
    "C98_trivial_write",
    "C98_absent_read",
    "C98_absent_write",
    "C98_constant_read",
    "C98_constant_write",
    "C98_pinned_refuted",
    "C98_source_refuted"
   ],
   "note": "The field must not be referred to by later fields. The constant-length part is for runtime streams (a constexpr stream is read element by element) and assumes the allocation succeeds. The two write guards are shown necessary by C98_pinned_refuted and C98_source_refuted."
  },
  {
   "property": "C99",
   "status": "proved",
   "theorems": [
    "C99_expressions",
    "C99_blocks",
    "C99_examples",
    "C99_reported",
    "C99_navigation",
    "C99_failures",
    "C99_problems",
    "C99_exit",
    "C99_indented_refuted",
    "C99_crossed_refuted",
    "C99_reported_refuted",
    "C99_commented_refuted"
   ],
   "note": "Characters are bytes with the ASCII classes; the texts of the messages are not modelled. The gaps are proved as C99_indented_refuted, C99_crossed_refuted, C99_reported_refuted and C99_commented_refuted."
  },
  {
   "property": "C100",
   "status": "proved",
   "theorems": [
    "C100_expressions",
    "C100_removed",
    "C100_run_on_refuted",
    "C100_paths",
    "C100_entry",
    "C100_header",
    "C100_any_order",
    "C100_moved",
    "C100_shown",
    "C100_moved_refuted",
    "C100_ending_refuted",
    "C100_comment_refuted"
   ],
   "note": "Characters are bytes with the ASCII classes; no symbolic links, every file readable, Python's recursion limit not modelled. Without the guards it fails: C100_run_on_refuted, C100_ending_refuted, C100_comment_refuted, C100_moved_refuted (and C94 for cycles)."
  },
  {
   "property": "C101",
   "status": "proved",
   "theorems": [
    "C101_integer",
    "C101_integers",
    "C101_undefined",
    "C101_fraction",
    "C101_nearest",
    "C101_overflow",
    "C101_exact",
    "C101_float",
    "C101_undefined_refuted",
    "C101_variance_refuted",
    "C101_fraction_refuted",
    "C101_eq_refuted",
    "C101_pinned_refuted",
    "C101_float_refuted"
   ],
   "note": "Conversions round to nearest, which C++ leaves to the implementation. False as hoped for: C101_undefined_refuted, C101_fraction_refuted, C101_eq_refuted, C101_pinned_refuted, C101_float_refuted."
  },
  {
   "property": "C102",
   "status": "proved",
   "theorems": [
    "C102_read",
    "C102_read_total",
    "C102_write",
    "C102_write_total"
   ],
   "note": "The causes are those of C30 and C101. Stack and heap exhaustion are not modelled; has_fields says the struct to be written holds values of its types, so a bool is 0 or 1."
  },
  {
   "property": "C103",
   "status": "proved",
   "theorems": [
    "C103_runs",
    "C103_every",
    "C103_numeral",
    "C103_sample"
   ],
   "note": "Standard output goes to a file, so println does not transcode; a failing output stream is not modelled."
  },
  {
   "property": "C104",
   "status": "proved",
   "theorems": [
    "C104_cast",
    "C104_swap"
   ],
   "note": "Both sides take the constraints, lengths and deduced types from the same definitions; their control flow, memory and bookkeeping are separate."
  },
  {
   "property": "C105",
   "status": "proved",
   "theorems": [
    "C105_cast"
   ],
   "note": "Derived, frozen and verified values are taken from the same definitions on both sides."
  },
  {
   "property": "C106",
   "status": "proved",
   "theorems": [
    "C106_same",
    "C106_computed",
    "C106_sound",
    "C106_read",
    "C106_write",
    "C106_small",
    "C106_round_trip",
    "C106_derived",
    "C106_verified",
    "C106_undefined_refuted",
    "C106_fraction_refuted",
    "C106_large_refuted",
    "C106_write_undefined_refuted"
   ],
   "note": "The writer is characterised for schemas that begin with the number; the comparison with computed lengths is for all schemas. C106_undefined_refuted, C106_fraction_refuted, C106_large_refuted and C106_write_undefined_refuted are what it costs."
  },
  {
   "property": "C107",
   "status": "proved",
   "theorems": [
    "C107_same",
    "C107_read",
    "C107_write",
    "C107_back",
    "C107_whole",
    "C107_whole_size",
    "C107_fraction_refuted",
    "C107_integer_refuted",
    "C107_undefined_refuted",
    "C107_rounded_refuted",
    "C107_zero_refuted"
   ],
   "note": "For a field, a union switched on it and any fields after. C107_fraction_refuted, C107_integer_refuted, C107_undefined_refuted, C107_rounded_refuted and C107_zero_refuted are where reading and writing part."
  },
  {
   "property": "C108",
   "status": "proved",
   "theorems": [
    "C108_read",
    "C108_write",
    "C108_exact",
    "C108_stops",
    "C108_first",
    "C108_back",
    "C108_refuted"
   ],
   "note": "C108_refuted: a message that is read, whose struct the writer refuses."
  },
  {
   "property": "C109",
   "status": "proved",
   "theorems": [
    "C109_name",
    "C109_plain",
    "C109_renamed_read",
    "C109_renamed_write",
    "C109_renamed_accepted",
    "C109_renamed_index",
    "C109_read",
    "C109_write",
    "C109_accepted",
    "C109_index",
    "C109_distinct",
    "C109_lookup",
    "C109_refuted"
   ],
   "note": "C109_refuted: names that differ only after a NUL are refused as the same, and a reference goes to the field that agrees up to there."
  },
  {
   "property": "C110",
   "status": "proved",
   "theorems": [
    "C110_ids",
    "C110_exact",
    "C110_accepted",
    "C110_wf",
    "C110_typed",
    "C110_casts",
    "C110_alternatives",
    "C110_discriminant",
    "C110_no_float_field"
   ],
   "note": "A guide with match values or computations that are not integers has no schema in the model and counts as refused here. Predicates of a ladder are compared as the functions they are written as."
  },
  {
   "property": "C111",
   "status": "proved",
   "theorems": [
    "C111_exact",
    "C111_unique",
    "C111_order"
   ],
   "note": "As in C110, a guide whose match values or computation are not integers counts as refused."
  },
  {
   "property": "C112",
   "status": "proved",
   "theorems": [
    "C112_same",
    "C112_run",
    "C112_refused_last",
    "C112_granted",
    "C112_sizes",
    "C112_blocks",
    "C112_last",
    "C112_paid",
    "C112_twice",
    "C112_bound",
    "C112_supply",
    "C112_enough",
    "C112_stateless"
   ],
   "note": "A request of no bytes stands for none, and short strings are not kept in place. Memory is not given back here (C113)."
  },
  {
   "property": "C113",
   "status": "proved",
   "theorems": [
    "C113_run",
    "C113_copies",
    "C113_exact",
    "C113_bound",
    "C113_room",
    "C113_enough",
    "C113_flat"
   ],
   "note": "Destructors after an error or bad_alloc are not modelled: nothing is asked for after them. Small buffers, allocator overhead and fragmentation are left out."
  },
  {
   "property": "C114",
   "status": "proved",
   "theorems": [
    "C114_read",
    "C114_write",
    "C114_unique",
    "C114_exclusive",
    "C114_order_refuted",
    "C114_overlap_refuted"
   ],
   "note": "The variance is a field of the list being cast (C36 carries this into records) and has no constraint of its own; no later field reads it by name, since callables see the position."
  },
  {
   "property": "C115",
   "status": "proved",
   "theorems": [
    "C115_valid",
    "C115_read",
    "C115_write",
    "C115_refusal_refuted",
    "C115_any_valid",
    "C115_any_read",
    "C115_any_write",
    "C115_any_refused",
    "C115_accepted",
    "C115_follows"
   ],
   "note": "Stated for memory streams and for reads and writes that succeed; the second order need not be accepted for the writing theorem."
  },
  {
   "property": "C116",
   "status": "proved",
   "theorems": [
    "C116_outcome",
    "C116_write",
    "C116_relay",
    "C116_narrow_refuted"
   ],
   "note": "Relaying needs the guard of C04 for the order written; the two casts agree on size_t and the default ceiling."
  },
  {
   "property": "C117",
   "status": "proved",
   "theorems": [
    "C117_typed",
    "C117_plain"
   ],
   "note": "About the checks as modelled in Typing.v, which the other theorems take as a hypothesis."
  },
  {
   "property": "C118",
   "status": "proved",
   "theorems": [
    "C118_open",
    "C118_close",
    "C118_contained",
    "C118_write",
    "C118_overrun_refuted"
   ],
   "note": "The fields after the payload may not refer to it."
  },
  {
   "property": "C119",
   "status": "proved",
   "theorems": [
    "C119_older",
    "C119_newer",
    "C119_payload",
    "C119_embedded_refuted"
   ],
   "note": "Versions are a schema and the same schema with fields appended."
  },
  {
   "property": "C120",
   "status": "proved",
   "theorems": [
    "C120_pieces",
    "C120_place",
    "C120_edit"
   ],
   "note": "For writes that both succeed; which writes succeed is C50."
  },
  {
   "property": "C121",
   "status": "proved",
   "theorems": [
    "C121_refused",
    "C121_numbers",
    "C121_strings",
    "C121_order",
    "C121_numbers_refuted"
   ],
   "note": "Trying counts every outcome but a struct as a refusal."
  },
  {
   "property": "C122",
   "status": "proved",
   "theorems": [
    "C122_apart",
    "C122_joined",
    "C122_written"
   ],
   "note": "The records are the last field of the message."
  },
  {
   "property": "C123",
   "status": "proved",
   "theorems": [
    "C123_valid",
    "C123_read",
    "C123_write",
    "C123_values",
    "C123_back",
    "C123_alone_refuted"
   ],
   "note": "Each part refers to its own fields only; C123_alone_refuted shows that a part of a valid struct need not be valid alone."
  }
 ]
}