(** * Order comparisons of arrays as constraints *)
From Verif Require Export Constraint.

(** The result of [a <=> b].
    In the code: used by include/field_validation/field_value_constraints.hpp:79,87,95. *)
Inductive ordering := Less | Equivalent | Greater | Unordered.

(** [a <=> b] of two [std::array]s of numbers or of arrays
    ([std::lexicographical_compare_three_way]): the first two elements that are not
    equivalent decide; floating-point numbers may be unordered, and that decides as
    well.
    In the code: used by include/field_validation/field_value_constraints.hpp:79,87,95. *)
Fixpoint three_way (a b : val) {struct a} : ordering :=
  let fix go (l m : list val) {struct l} : ordering :=
    match l, m with
    | [], [] => Equivalent
    | [], _ :: _ => Less
    | _ :: _, [] => Greater
    | x :: l', y :: m' => match three_way x y with Equivalent => go l' m' | r => r end
    end in
  match a, b with
  | VZ x, VZ y => if x <? y then Less else if x =? y then Equivalent else Greater
  | VF w x, VF u y =>
      if fltb (fdec w x) (fdec u y) then Less
      else if feqb (fdec w x) (fdec u y) then Equivalent
      else if fltb (fdec u y) (fdec w x) then Greater else Unordered
  | VSeq l, VSeq m => go l m
  | _, _ => Unordered
  end.

(** [lt], [gt] and [lte] with an array for literal
    (include/field_validation/field_value_constraints.hpp:74-96); [gte] does not admit
    one (38-40,98).  In a schema: [CFun (arr_cmp op lit)]. *)
Inductive aop := ALt | AGt | ALte.

(** include/field_validation/field_value_constraints.hpp:79 [lt], 87 [gt], 95 [lte]. *)
Definition arr_cmp (op : aop) (lit v : val) : bool :=
  match op, three_way v lit with
  | ALt, Less | AGt, Greater | ALte, Less | ALte, Equivalent => true
  | _, _ => false
  end.

(** [any_of] with arrays for literals (field_value_constraints.hpp:113-125): [std::find]
    with [==].  In a schema: [CFun (arr_any lits)]. *)
Definition arr_any (lits : list val) (v : val) : bool := existsb (cxx_eqb v) lits.
