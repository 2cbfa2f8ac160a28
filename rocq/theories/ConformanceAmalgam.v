(** * The single header of the repository, made by the model

    A test of the model, not a proof: the includes of the 61 files below include/ as they
    stand, and the standard headers and the order of the files of single_header/s2s.hpp. *)
From Verif Require Import AmalgamSpec.
Local Open Scope string_scope.

Local Notation i := LInc.
Local Notation s := LStd.

Definition s2s_include : source := [
    ("api/field_descriptors.hpp", [i "lib/s2s_traits/type_traits.hpp"; i "field/field.hpp";
   i "field/field_options.hpp"; i "field_list/field_list_base.hpp";
   i "field_size/field_size.hpp"; i "field_size/field_size_deduce.hpp";
   i "field_validation/field_value_constraints.hpp";
   i "type_deduction/type/type_deduction_traits.hpp";
   i "type_deduction/type/type_deduction_metafunctions.hpp"]);
    ("api/stream_cast.hpp", [s "bit"; i "error/cast_error.hpp"; i "stream/stream_traits.hpp";
   i "cast/stream_cast_impl.hpp"]);
    ("api/struct_cast.hpp", [s "expected"; s "bit"; i "error/cast_error.hpp";
   i "stream/stream_traits.hpp"; i "cast/struct_cast_impl.hpp"]);
    ("api/struct_field_list.hpp", [s "array"; i "lib/algorithms/algorithms.hpp";
   i "lib/containers/static_set.hpp"; i "field/field_traits.hpp";
   i "field_list/field_list_metadata.hpp"; i "field_list/field_list.hpp"]);
    ("cast/stream_cast_impl.hpp", [s "expected"; i "error/cast_error.hpp";
   i "field_list/field_list.hpp"; i "field_write/field_writer.hpp"]);
    ("cast/struct_cast_impl.hpp", [s "expected"; i "error/cast_error.hpp";
   i "field_list/field_list.hpp"; i "field_read/field_reader.hpp"]);
    ("error/cast_error.hpp", [s "expected"; s "string_view"]);
    ("field/field.hpp", [s "variant"; s "optional"; i "lib/containers/fixed_string.hpp";
   i "field_size/field_size.hpp"; i "field_validation/field_value_constraints.hpp";
   i "type_deduction/utils/type_condition_list.hpp"]);
    ("field/field_accessor.hpp", [i "lib/containers/fixed_string.hpp"]);
    ("field/field_metafunctions.hpp", [i "lib/containers/fixed_string.hpp";
   i "field_size/field_size.hpp"; i "field/field.hpp"]);
    ("field/field_options.hpp", [i "field_size/field_size.hpp";
   i "field_size/comptime_field_size_deduce.hpp";
   i "field_validation/field_value_constraints.hpp"]);
    ("field/field_traits.hpp", [i "field/field.hpp"; i "field_size/field_size.hpp";
   i "lib/s2s_traits/type_traits.hpp"]);
    ("field/field_type_info.hpp", [i "lib/metaprog/mp.hpp"]);
    ("field_compute/computation_from_fields.hpp", [i "lib/metaprog/fixed_string_list.hpp"]);
    ("field_compute/computation_from_fields_impl.hpp", [s "type_traits";
   i "lib/metaprog/fixed_string_list.hpp"; i "field/field_accessor.hpp";
   i "field_list/field_list.hpp"; i "field_compute/computation_from_fields.hpp"]);
    ("field_compute/computation_from_fields_traits.hpp", [i "field/field_accessor.hpp";
   i "lib/containers/fixed_string.hpp"; i "field_compute/computation_from_fields.hpp"]);
    ("field_list/field_list.hpp", [i "field/field_type_info.hpp"; i "field/field_traits.hpp";
   i "field_list/field_list_base.hpp"; i "field_list/field_list_metadata.hpp";
   i "lib/metaprog/mp.hpp"]);
    ("field_list/field_list_base.hpp", [s "type_traits"]);
    ("field_list/field_list_metadata.hpp", [i "lib/metaprog/mp.hpp";
   i "lib/containers/static_vector.hpp"; i "lib/containers/static_map.hpp";
   i "lib/containers/static_set.hpp"; i "lib/containers/static_optional.hpp";
   i "lib/containers/fixed_string.hpp"; i "field/field.hpp"; i "field_size/field_size.hpp";
   i "field/field_type_info.hpp"; i "type_deduction/type/type.hpp";
   i "type_deduction/if_else_ladder/ladder.hpp"]);
    ("field_read/field_reader.hpp", [s "cstring"; s "expected"; s "utility";
   i "field/field_traits.hpp"; i "field/field_metafunctions.hpp";
   i "field_size/comptime_field_size_deduce.hpp"; i "field_size/field_size_deduce.hpp";
   i "error/cast_error.hpp"; i "field/field.hpp"; i "type_deduction/type/type_impl.hpp";
   i "field_read/read_impl.hpp"]);
    ("field_read/read_impl.hpp", [s "expected"; s "bit"; s "array"; s "limits";
   s "type_traits"; i "error/cast_error.hpp"; i "field_size/field_size.hpp";
   i "lib/s2s_traits/type_traits.hpp"; i "lib/memory/address_manip.hpp";
   i "stream/byte_order.hpp"]);
    ("field_size/comptime_field_size_deduce.hpp", [i "field_size/field_size.hpp"]);
    ("field_size/field_size.hpp", [s "cstddef"; s "type_traits"; i "field/field_accessor.hpp";
   i "lib/metaprog/fixed_string_list.hpp"]);
    ("field_size/field_size_deduce.hpp", [i "field/field_accessor.hpp";
   i "field_list/field_list.hpp"; i "field_size/field_size.hpp";
   i "field_size/comptime_field_size_deduce.hpp";
   i "field_compute/computation_from_fields.hpp";
   i "field_compute/computation_from_fields_impl.hpp"]);
    ("field_validation/field_value_constraints.hpp", [s "algorithm"; s "array"; s "concepts";
   s "cassert"; s "cstdio"; s "type_traits"; i "lib/metaprog/typelist.hpp";
   i "lib/containers/fixed_string.hpp"; i "lib/s2s_traits/type_traits.hpp"]);
    ("field_write/derived_value.hpp", [s "expected"; i "error/cast_error.hpp";
   i "field/field.hpp"; i "field/field_traits.hpp"; i "field_list/field_list.hpp";
   i "field_size/field_size.hpp"; i "field_size/comptime_field_size_deduce.hpp";
   i "field_compute/computation_from_fields_impl.hpp"]);
    ("field_write/field_writer.hpp", [s "expected"; s "utility"; s "variant";
   i "field/field_traits.hpp"; i "type_deduction/type/type_impl.hpp";
   i "field/field_metafunctions.hpp"; i "field_size/comptime_field_size_deduce.hpp";
   i "field_size/field_size_deduce.hpp"; i "field_compute/computation_from_fields_impl.hpp";
   i "error/cast_error.hpp"; i "field_write/derived_value.hpp";
   i "field_write/write_impl.hpp"]);
    ("field_write/write_impl.hpp", [s "expected"; s "bit"; i "error/cast_error.hpp";
   i "lib/s2s_traits/type_traits.hpp"; i "lib/memory/address_manip.hpp";
   i "stream/byte_order.hpp"]);
    ("lib/algorithms/algorithms.hpp", [s "ranges"]);
    ("lib/containers/fixed_string.hpp", [s "array"; s "cstddef"; s "algorithm";
   s "string_view"]);
    ("lib/containers/static_array.hpp", [s "cstdint"]);
    ("lib/containers/static_map.hpp", [s "cstdint"; s "utility"; s "optional"; s "functional";
   i "lib/containers/static_vector.hpp"; i "lib/algorithms/algorithms.hpp"]);
    ("lib/containers/static_optional.hpp", [s "optional"]);
    ("lib/containers/static_set.hpp", [s "cstdint"; s "array";
   i "lib/containers/static_vector.hpp"; i "lib/algorithms/algorithms.hpp"]);
    ("lib/containers/static_vector.hpp", [s "cstdint"]);
    ("lib/memory/address_manip.hpp", [i "stream/stream_traits.hpp";
   i "lib/containers/fixed_string.hpp"; s "vector"; s "array"]);
    ("lib/memory/bit.hpp", []);
    ("lib/metaprog/fixed_string_list.hpp", [s "type_traits";
   i "lib/containers/fixed_string.hpp"]);
    ("lib/metaprog/mp.hpp", [s "cstdint"; s "array"; s "utility"]);
    ("lib/metaprog/typelist.hpp", [s "string"; s "type_traits"]);
    ("lib/s2s_traits/type_traits.hpp", [s "array"; s "string"; s "vector"; s "variant";
   s "optional"; i "lib/containers/fixed_string.hpp"; i "field_list/field_list_base.hpp"]);
    ("s2s.hpp", [i "field/field_accessor.hpp"; i "field/field.hpp";
   i "field_list/field_list.hpp"; i "field_compute/computation_from_fields.hpp";
   i "error/cast_error.hpp"; i "api/field_descriptors.hpp"; i "api/struct_field_list.hpp";
   i "type_deduction/type/type.hpp"; i "type_deduction/switch/switch.hpp";
   i "type_deduction/if_else_ladder/ladder.hpp"; i "type_deduction/utils/type_tags.hpp";
   i "api/struct_cast.hpp"; i "api/stream_cast.hpp"]);
    ("stream/byte_order.hpp", [s "bit"; i "lib/s2s_traits/type_traits.hpp"]);
    ("stream/stream_traits.hpp", [s "array"; s "concepts"; s "iostream"]);
    ("type_deduction/if_else_ladder/clause.hpp", [i "type_deduction/utils/type_tags.hpp";
   i "field_compute/computation_from_fields_traits.hpp"]);

     ("type_deduction/if_else_ladder/clause_traits.hpp", [i "type_deduction/if_else_ladder/clause.hpp"]);

     ("type_deduction/if_else_ladder/ladder.hpp", [i "type_deduction/if_else_ladder/clause_traits.hpp";
   i "type_deduction/utils/helper.hpp"; i "type_deduction/utils/type_condition_list.hpp"]);
    ("type_deduction/if_else_ladder/ladder_impl.hpp", [s "expected"; i "error/cast_error.hpp";
   i "field_list/field_list.hpp"; i "field_compute/computation_from_fields_impl.hpp";
   i "type_deduction/if_else_ladder/ladder.hpp"; i "type_deduction/utils/helper.hpp"]);

     ("type_deduction/if_else_ladder/ladder_traits.hpp", [i "type_deduction/if_else_ladder/ladder.hpp"]);
    ("type_deduction/switch/match_case.hpp", [i "type_deduction/utils/type_tags.hpp"]);

     ("type_deduction/switch/match_case_traits.hpp", [i "type_deduction/switch/match_case.hpp"]);
    ("type_deduction/switch/switch.hpp", [i "type_deduction/switch/match_case_traits.hpp";
   i "type_deduction/utils/helper.hpp"; i "type_deduction/utils/type_condition_list.hpp"]);
    ("type_deduction/switch/switch_impl.hpp", [s "expected"; i "error/cast_error.hpp";
   i "type_deduction/switch/switch.hpp"; i "type_deduction/utils/helper.hpp"]);

     ("type_deduction/switch/switch_traits.hpp", [i "type_deduction/switch/match_case_traits.hpp";
   i "type_deduction/switch/switch.hpp"]);
    ("type_deduction/type/type.hpp", [i "field/field_accessor.hpp"]);
    ("type_deduction/type/type_deduction_metafunctions.hpp", [i "lib/metaprog/mp.hpp";
   i "lib/containers/static_vector.hpp"; i "lib/containers/static_set.hpp";
   i "field_compute/computation_from_fields.hpp"; i "type_deduction/if_else_ladder/ladder.hpp";
   i "type_deduction/type/type.hpp"]);

     ("type_deduction/type/type_deduction_traits.hpp", [i "type_deduction/switch/switch_traits.hpp";
   i "type_deduction/if_else_ladder/ladder_traits.hpp"; i "type_deduction/type/type.hpp"]);
    ("type_deduction/type/type_impl.hpp", [s "expected"; i "field/field_accessor.hpp";
   i "error/cast_error.hpp"; i "field_list/field_list.hpp";
   i "field_compute/computation_from_fields_impl.hpp"; i "type_deduction/type/type.hpp";
   i "type_deduction/if_else_ladder/ladder_impl.hpp";
   i "type_deduction/switch/switch_impl.hpp"]);
    ("type_deduction/utils/helper.hpp", [s "optional"; s "expected"; i "error/cast_error.hpp";
   i "type_deduction/switch/match_case_traits.hpp";
   i "type_deduction/if_else_ladder/clause_traits.hpp"]);
    ("type_deduction/utils/type_condition_list.hpp", []);
    ("type_deduction/utils/type_tags.hpp", [i "lib/s2s_traits/type_traits.hpp";
   i "field_list/field_list_base.hpp"; i "field_size/field_size.hpp";
   i "field_size/comptime_field_size_deduce.hpp";
   i "field_validation/field_value_constraints.hpp"; i "field/field_options.hpp"])].

Definition s2s_std : list ident :=
  ["algorithm"; "array"; "bit"; "cassert"; "concepts"; "cstddef"; "cstdint"; "cstdio";
   "cstring"; "expected"; "functional"; "iostream"; "limits"; "optional"; "ranges"; "string";
   "string_view"; "type_traits"; "utility"; "variant"; "vector"].

Definition s2s_order : list ident :=
  ["lib/containers/fixed_string.hpp"; "field/field_accessor.hpp";
   "lib/metaprog/fixed_string_list.hpp"; "field_size/field_size.hpp";
   "lib/metaprog/typelist.hpp"; "field_list/field_list_base.hpp";
   "lib/s2s_traits/type_traits.hpp"; "field_validation/field_value_constraints.hpp";
   "type_deduction/utils/type_condition_list.hpp"; "field/field.hpp"; "field/field_traits.hpp";
   "lib/containers/static_vector.hpp"; "lib/algorithms/algorithms.hpp";
   "lib/containers/static_map.hpp"; "lib/containers/static_set.hpp";
   "lib/containers/static_optional.hpp"; "lib/metaprog/mp.hpp"; "field/field_type_info.hpp";
   "type_deduction/type/type.hpp"; "error/cast_error.hpp";
   "field_size/comptime_field_size_deduce.hpp"; "field/field_options.hpp";
   "type_deduction/utils/type_tags.hpp"; "type_deduction/switch/match_case.hpp";
   "type_deduction/switch/match_case_traits.hpp"; "field_compute/computation_from_fields.hpp";
   "field_compute/computation_from_fields_traits.hpp";
   "type_deduction/if_else_ladder/clause.hpp";
   "type_deduction/if_else_ladder/clause_traits.hpp"; "type_deduction/utils/helper.hpp";
   "type_deduction/if_else_ladder/ladder.hpp"; "field_list/field_list_metadata.hpp";
   "field_list/field_list.hpp"; "field_compute/computation_from_fields_impl.hpp";
   "field_size/field_size_deduce.hpp"; "type_deduction/switch/switch.hpp";
   "type_deduction/switch/switch_traits.hpp";
   "type_deduction/if_else_ladder/ladder_traits.hpp";
   "type_deduction/type/type_deduction_traits.hpp";
   "type_deduction/type/type_deduction_metafunctions.hpp"; "api/field_descriptors.hpp";
   "api/struct_field_list.hpp"; "field/field_metafunctions.hpp";
   "type_deduction/if_else_ladder/ladder_impl.hpp"; "type_deduction/switch/switch_impl.hpp";
   "type_deduction/type/type_impl.hpp"; "stream/stream_traits.hpp";
   "lib/memory/address_manip.hpp"; "stream/byte_order.hpp"; "field_read/read_impl.hpp";
   "field_read/field_reader.hpp"; "cast/struct_cast_impl.hpp"; "api/struct_cast.hpp";
   "field_write/derived_value.hpp"; "field_write/write_impl.hpp";
   "field_write/field_writer.hpp"; "cast/stream_cast_impl.hpp"; "api/stream_cast.hpp";
   "s2s.hpp"].

Example s2s_single_header :
  amalgam s2s_include "s2s.hpp" = Some (Single s2s_std (map (fun f => (f, [])) s2s_order)).
Proof. vm_compute. reflexivity. Qed.
