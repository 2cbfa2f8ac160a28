(** * What the documentation says about constraints, magic fields, bounds and lists *)
From Verif Require Export KindSpec Options.

(** The types of values a constraint can be given: numbers, strings of fixed size,
    arrays of such. *)
Inductive value_type : cxx -> Prop :=
| vt_int : forall s, value_type (XInt s)
| vt_float : forall w, value_type (XFloat w)
| vt_string : forall n, value_type (XFixStr n)
| vt_array : forall t n, value_type t -> value_type (XArray t n).

(** Made of numbers only; of integers and strings only. *)
Inductive numeric : cxx -> Prop :=
| nu_int : forall s, numeric (XInt s)
| nu_float : forall w, numeric (XFloat w)
| nu_array : forall t n, numeric t -> numeric (XArray t n).

(** Types whose values [==] and [<] compare in C++, whatever this library makes of it. *)
Inductive equatable : cxx -> Prop :=
| eq_int : forall s, equatable (XInt s)
| eq_float : forall w, equatable (XFloat w)
| eq_fixed : forall n, equatable (XFixStr n)
| eq_string : equatable XString
| eq_array : forall t n, equatable t -> equatable (XArray t n)
| eq_vector : forall t, equatable t -> equatable (XVector t).
Inductive orderable : cxx -> Prop :=
| or_int : forall s, orderable (XInt s)
| or_float : forall w, orderable (XFloat w)
| or_string : orderable XString
| or_array : forall t n, orderable t -> orderable (XArray t n)
| or_vector : forall t, orderable t -> orderable (XVector t).

Inductive discrete : cxx -> Prop :=
| di_int : forall s, discrete (XInt s)
| di_string : forall n, discrete (XFixStr n)
| di_array : forall t n, discrete t -> discrete (XArray t n).

(** The table of docs/constraints.md, "The constructs". *)
Definition documented (c : cclass) (t : cxx) : Prop :=
  match c with
  | KNoConstraint => True
  | KEq | KNeq => discrete t
  | KLt | KGt | KLte => numeric t
  | KGte => (exists s, t = XInt s) \/ (exists n, t = XFixStr n)
  | KAnyOf => value_type t
  end.

(** The ordinary descriptor and the options a magic descriptor abbreviates
    (docs/constraints.md, "The magic descriptors are constraints"). *)
Definition spelled_out (d : desc) : option (desc * list opt) :=
  match d with
  | MagicByteArray n lit => Some (FixedArrayField uchar n, [OptConstr (CArr false lit)])
  | MagicString lit => Some (FixedStringField (length lit - 1), [OptConstr (CStr false lit)])
  | MagicNumber t sz s lit => Some (BasicField t, [OptSize sz; OptConstr (CCmp OEq s lit)])
  | _ => None
  end.

(** Descriptors whose element count comes from the wire. *)
Definition container (d : desc) : Prop :=
  match d with VecField _ | VectorOfRecords _ | StrField => True | _ => False end.
