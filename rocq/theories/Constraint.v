(** * Evaluating constraints *)
From Verif Require Export Schema.

(** Result of [constraint_checker(field.value)]: true, false, undefined
    behaviour, or "does not compile" (wrong kind of value).
    In the code: include/cast/struct_cast_impl.hpp:38-44, include/field_validation/field_value_constraints.hpp:42-125. *)
Inductive cres := CTrue | CFalse | CUndef | CStuck.

(** The verdict of include/field_validation/field_value_constraints.hpp:48,71,79,87,95,103. *)
Definition cres_of_bool (b : bool) : cres := if b then CTrue else CFalse.

(** The comparison operators of the predefined constraints
    (include/field_validation/field_value_constraints.hpp:48,71,79,87,95,103).
    Both operands have the constraint's type, so the comparison is exact. *)
Definition do_cmp (o : cmp) (a b : Z) : bool :=
  match o with
  | OEq => a =? b
  | ONeq => negb (a =? b)
  | OLt => a <? b
  | OGt => b <? a
  | OLte => a <=? b
  | OGte => b <=? a
  end.

(** The same on floating-point numbers.
    In the code: include/field_validation/field_value_constraints.hpp:79,87,95. *)
Definition do_fcmp (o : cmp) (a b : fval) : bool :=
  match o with
  | OEq => feqb a b
  | ONeq => negb (feqb a b)
  | OLt => fltb a b
  | OGt => fltb b a
  | OLte => fltb a b || feqb a b
  | OGte => fltb b a || feqb b a
  end.

(** [==] on [std::array]s of numbers: element by element, floating-point numbers by
    value, not by bit pattern.
    In the code: include/field_validation/field_value_constraints.hpp:48,71. *)
Fixpoint cxx_eqb (a b : val) {struct a} : bool :=
  let fix list_eqb (l m : list val) {struct l} : bool :=
    match l, m with
    | [], [] => true
    | x :: l', y :: m' => cxx_eqb x y && list_eqb l' m'
    | _, _ => false
    end in
  match a, b with
  | VZ x, VZ y => x =? y
  | VF w x, VF u y => Nat.eqb w u && feqb (fdec w x) (fdec u y)
  | VSeq l, VSeq m => list_eqb l m
  | _, _ => false
  end.

(** [std::string_view{str.data()}]: the chars before the first NUL.  [None]: no
    NUL among them, so [strlen] reads past the end of the object.
    In the code: include/lib/containers/fixed_string.hpp:33. *)
Fixpoint cstr (l : list Z) : option (list Z) :=
  match l with
  | [] => None
  | b :: l' => if b =? 0 then Some [] else
      match cstr l' with Some s => Some (b :: s) | None => None end
  end.

(** [==] of two [std::string_view]s (include/lib/containers/fixed_string.hpp:33). *)
Fixpoint zlist_eqb (l m : list Z) : bool :=
  match l, m with
  | [], [] => true
  | x :: l', y :: m' => (x =? y) && zlist_eqb l' m'
  | _, _ => false
  end.

(** The chars of a [fixed_string] (include/lib/containers/fixed_string.hpp:14). *)
Fixpoint chars_of (l : list val) : option (list Z) :=
  match l with
  | [] => Some []
  | VZ z :: l' => match chars_of l' with Some s => Some (z :: s) | None => None end
  | _ :: _ => None
  end.

(** include/lib/containers/fixed_string.hpp:30-34 [operator==]. *)
Definition fixed_string_eq (a b : list Z) : cres :=
  match cstr a, cstr b with
  | Some x, Some y => cres_of_bool (zlist_eqb x y)
  | _, _ => CUndef
  end.

(** include/lib/containers/fixed_string.hpp:36-39 [operator!=]. *)
Definition cres_neg (r : cres) : cres :=
  match r with CTrue => CFalse | CFalse => CTrue | r => r end.

(** include/field_validation/field_value_constraints.hpp:120-124 [any_of] on [fixed_string]s. *)
Fixpoint str_any (a : list Z) (lits : list (list Z)) : cres :=
  match lits with
  | [] => CFalse
  | b :: lits' =>
      match fixed_string_eq a b with
      | CFalse => str_any a lits'
      | r => r
      end
  end.

(** [const T& actual_v]: a number is first converted to the type of the literal: to an
    integral type, or to a floating-point type of [w] bytes.  [None]: wrong kind of value.
    In the code: include/field_validation/field_value_constraints.hpp:48,71,79,87,95,103. *)
Definition as_int (s : sty) (v : val) : option (option Z) :=
  match v with
  | VZ z => Some (Some (conv s z))
  | VF u z => Some (ftoi s (fdec u z))
  | _ => None
  end.
(** include/field_validation/field_value_constraints.hpp:79,87,95 with a floating-point [T]. *)
Definition as_float (w : nat) (v : val) : option fval :=
  match v with
  | VZ z => Some (fround w (FFin (units z)))
  | VF u z => Some (if Nat.leb u w then fdec u z else fround w (fdec u z))
  | _ => None
  end.

(** include/field_validation/field_value_constraints.hpp:42-125. *)
Definition check (c : constr) (v : val) : cres :=
  match c with
  | CNone => CTrue
  | CCmp o s lit =>
      match as_int s v with
      | Some (Some z) => cres_of_bool (do_cmp o z lit)
      | Some None => CUndef
      | None => CStuck
      end
  | CAny s lits =>
      match as_int s v with
      | Some (Some z) => cres_of_bool (existsb (fun l => z =? l) lits)
      | Some None => CUndef
      | None => CStuck
      end
  | CArr neg lit =>
      match v with
      | VSeq _ => cres_of_bool (xorb neg (cxx_eqb v lit))
      | _ => CStuck
      end
  | CStr neg lit =>
      match v with
      | VSeq l =>
          match chars_of l with
          | Some a => let r := fixed_string_eq a lit in if neg then cres_neg r else r
          | None => CStuck
          end
      | _ => CStuck
      end
  | CStrAny lits =>
      match v with
      | VSeq l =>
          match chars_of l with Some a => str_any a lits | None => CStuck end
      | _ => CStuck
      end
  | CFCmp o w lit =>
      match as_float w v with
      | Some x => cres_of_bool (do_fcmp o x (fdec w lit))
      | None => CStuck
      end
  | CFAny w lits =>
      match as_float w v with
      | Some x => cres_of_bool (existsb (fun l => feqb x (fdec w l)) lits)
      | None => CStuck
      end
  | CFun f => cres_of_bool (f v)
  end.
