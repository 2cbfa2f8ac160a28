(** * Discriminants and match values that are not both integers

    [match_case] takes a value of any type (include/type_deduction/switch/match_case.hpp:8-13),
    and [match_field] a field of any: a [float] may be matched against integers, an integer
    against 1.5.  Read.v and Write.v have integers on both sides.
    Simplification: match values of class type are not compared here; a [fixed_string] does
    not get past the check for duplicates (C76). *)
From Verif Require Export FloatLen Guides.
Local Open Scope list_scope.
Local Open Scope Z_scope.

(** [v == match_case::value] (include/type_deduction/switch/switch_impl.hpp:12-20), the
    built-in operator: between integers their common type, else that of the floating-point
    operand, or the wider one. *)
Definition num_eqb (a b : mval) : bool :=
  match a, b with
  | MInt s x, MInt r y => cxx_eq s x r y
  | MInt _ x, MFloat w y | MFloat w y, MInt _ x => feqb (fround w (FFin (units x))) (fdec w y)
  | MFloat u x, MFloat w y => feqb (fdec u x) (fdec w y)
  | _, _ => false
  end.

(** The field's value with its type.
    In the code: include/type_deduction/switch/switch_impl.hpp:14-52. *)
Definition as_num (t : ctype) (v : val) : option mval :=
  match t, v with
  | TScalar s, VZ z => Some (MInt s z)
  | TFloat w, VF _ z => Some (MFloat w z)
  | _, _ => None
  end.

(** [deduce_type<type<match_field<id>, type_switch<cases...>>>]
    (include/type_deduction/type/type_impl.hpp:29-36, switch_impl.hpp:22-53): the first case
    that is equal, as a ladder of the comparisons. *)
Definition read_guide (id : ident) (t : ctype) (cases : list mval) : guide :=
  GLadder (map (fun m =>
    (fun vs => match vs with
               | [v] => match as_num t v with Some a => num_eqb a m | None => false end
               | _ => false
               end, [id])) cases).

(** [discriminant_obligation] (include/field_write/derived_value.hpp:41-69): what the writer
    has of the cases are their values cast to [std::size_t]. *)
Definition write_guide (c : cfg) (id : ident) (cases : list mval) : guide :=
  GField id (SInt (c_szw c) false)
    (map (fun m => (SInt (c_szw c) false,
                    match to_size_t (c_szw c) m with Some z => z | None => 0 end)) cases).

(** include/api/struct_cast.hpp:14-23, include/api/stream_cast.hpp:11-20, for a field [n] of
    type [t] and [w] bytes, a union [id] switched on it, and the fields [post]. *)
Definition nd_struct_cast (c : cfg) (n : ident) (t : ctype) (w : nat) (id : ident)
  (cases : list mval) (al : alts) (k : constr) (post : fields) : rprog (reason * ident) (list val) :=
  fl_struct_cast c (FCons n (FFixed t w) CNone (FCons id (FUnion (read_guide n t cases) al) k post)).

(** include/cast/stream_cast_impl.hpp:16-50 on that list. *)
Definition nd_stream_cast (c : cfg) (n : ident) (t : ctype) (w : nat) (id : ident)
  (cases : list mval) (al : alts) (k : constr) (post : fields) (vs : list val)
  : wprog (reason * ident) unit :=
  fl_stream_cast c (FCons n (FFixed t w) CNone (FCons id (FUnion (write_guide c n cases) al) k post)) vs.
