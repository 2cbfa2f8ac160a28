(** * C++ integral types: ranges, representations, conversions *)
From Verif Require Export Bytes Floats.

(** An integral type: [w] bytes, signed or not; or [bool] (one byte).
    include/lib/s2s_traits/type_traits.hpp:18-25 ([integral], [trivial]).
    Floating-point types: Floats.v and [TFloat] in Schema.v.
    Simplification: [char] is represented by its unsigned byte. *)
Inductive sty :=
| SInt (w : nat) (sg : bool)
| SBool.

(** sizeof.
    In the code: used at include/field/field_options.hpp:28. *)
Definition ssize (s : sty) : nat := match s with SInt w _ => w | SBool => 1%nat end.

(** Does the type have the value [z]?.
    In the code: used for include/field_write/derived_value.hpp:299-305. *)
Definition sc_in (s : sty) (z : Z) : bool :=
  match s with
  | SInt w false => (0 <=? z) && (z <? pow256 w)
  | SInt w true => (- pow256 w <=? 2 * z) && (2 * z <? pow256 w)
  | SBool => (z =? 0) || (z =? 1)
  end.

(** Two's complement bit pattern, as an unsigned number.
    In the code: used for include/lib/memory/address_manip.hpp:65-68. *)
Definition sc_bits (s : sty) (z : Z) : Z := z mod pow256 (ssize s).

(** The value with a given bit pattern.  [None]: the pattern is not a value of
    the type ([bool] has two values; loading any other pattern is undefined).
    In the code: used for include/field_read/read_impl.hpp:36-66. *)
Definition sc_of_bits (s : sty) (b : Z) : option Z :=
  match s with
  | SInt w false => Some b
  | SInt w true => Some (if 2 * b <? pow256 w then b else b - pow256 w)
  | SBool => if (b =? 0) || (b =? 1) then Some b else None
  end.

(** Implicit integral conversion of a number to type [s] (modulo 2^n since
    C++20; to [bool]: non-zero is true).
    In the code: used for include/field_validation/field_value_constraints.hpp:48-103, include/field_write/derived_value.hpp:262-296. *)
Definition conv (s : sty) (z : Z) : Z :=
  match s with
  | SInt w false => z mod pow256 w
  | SInt w true =>
      let b := z mod pow256 w in if 2 * b <? pow256 w then b else b - pow256 w
  | SBool => if z =? 0 then 0 else 1
  end.

(** Conversion of a floating-point number to type [s]: it is truncated, and the behaviour
    is undefined ([None]) if [s] does not have the result; to [bool]: other than zero is
    true.
    In the code: used for include/field_validation/field_value_constraints.hpp:48-103. *)
Definition ftoi (s : sty) (x : fval) : option Z :=
  match s, x with
  | SBool, FFin 0 => Some 0
  | SBool, _ => Some 1
  | SInt _ _, FFin n => let z := Z.quot n (2 ^ 1074) in if sc_in s z then Some z else None
  | SInt _ _, _ => None
  end.
Arguments ftoi : simpl never.

(** Integral promotion ([int] has 4 bytes) and usual arithmetic conversions.
    In the code: used for include/type_deduction/switch/switch_impl.hpp:14-52. *)
Definition promote (s : sty) : sty :=
  match s with
  | SInt w sg => if Nat.ltb w 4 then SInt 4 true else SInt w sg
  | SBool => SInt 4 true
  end.

(** For include/type_deduction/switch/switch_impl.hpp:14-52, [==] on two integral types. *)
Definition common (a b : sty) : sty :=
  match promote a, promote b with
  | SInt w1 s1, SInt w2 s2 =>
      if Nat.eqb w1 w2 then SInt w1 (s1 && s2)
      else if Nat.ltb w1 w2 then SInt w2 s2 else SInt w1 s1
  | _, _ => SInt 4 true
  end.

(** The built-in [a == b] on operands of types [s1], [s2]
    (include/type_deduction/switch/switch_impl.hpp:17). *)
Definition cxx_eq (s1 : sty) (z1 : Z) (s2 : sty) (z2 : Z) : bool :=
  conv (common s1 s2) z1 =? conv (common s1 s2) z2.

(** The build and the call: host order ([std::endian::native]), wire order (the
    [_le] / [_be] suffix), whether the stream is tagged [constexpr_stream],
    [sizeof(std::size_t)], and S2S_DEFAULT_MAX_BYTES
    (include/field_size/field_size.hpp:35-39, include/stream/byte_order.hpp:34-40). *)
Record cfg := mkCfg {
  c_host : endian;
  c_wire : endian;
  c_cx : bool;
  c_szw : nat;
  c_dmax : Z
}.

(** Conversion to [std::size_t].
    In the code: used for include/field_size/field_size_deduce.hpp:17-38. *)
Definition to_size (c : cfg) (z : Z) : Z := z mod pow256 (c_szw c).

(** include/stream/byte_order.hpp:34-40 [deduce_byte_order]. *)
Definition is_host_order (c : cfg) : bool := endian_eqb (c_host c) (c_wire c).
