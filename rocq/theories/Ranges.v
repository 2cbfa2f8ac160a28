(** * Range constraints

    include/field_validation/field_value_constraints.hpp:127-185 [range],
    [is_in_open_range], [is_in_closed_range].  In the repository as it stands the
    constructor of [range] applies [static_assert] to its parameters, so no schema
    with a range constraint compiles (docs/constraints.md); what is modelled is the
    check itself.  Values are compared with the built-in operators on one type [T],
    hence as integers. *)
From Coq Require Export ZArith List Bool.
From Coq Require Export Permutation.
Export ListNotations.
Global Open Scope Z_scope.

(** field_value_constraints.hpp:129-137 *)
Record range := mkRange { r_a : Z; r_b : Z }.

(** [std::lower_bound] (libstdc++ bits/stl_algobase.h [__lower_bound]): halve the
    length, keep the right part while the middle element is below.  [first]: the
    offset of [l] in the array; [n]: its length.
    In the code: called at include/field_validation/field_value_constraints.hpp:155,177. *)
Fixpoint lower_bound {A} (fuel : nat) (below : A -> bool) (d : A) (l : list A) (first n : nat) : nat :=
  match fuel with
  | O => first
  | S fuel' =>
      match n with
      | O => first
      | _ =>
          let half := Nat.div2 n in
          if below (nth (first + half) l d)
          then lower_bound fuel' below d l (first + half + 1) (n - half - 1)
          else lower_bound fuel' below d l first half
      end
  end.

(** field_value_constraints.hpp:155-163, 175-183: the element looked at, an index
    into the sorted array; the index [length rs] is [end]. *)
Definition candidate (rs : list range) (v : Z) : nat :=
  let d := mkRange 0 0 in
  let it := lower_bound (length rs) (fun r => r_b r <? v) d rs 0 (length rs) in
  if negb (Nat.eqb it 0) && (Nat.eqb it (length rs) || (v <? r_a (nth it rs d)))
  then (it - 1)%nat else it.

(** field_value_constraints.hpp:162 *)
Definition in_open (rs : list range) (v : Z) : bool :=
  match nth_error rs (candidate rs v) with
  | Some r => (r_a r <? v) && (v <? r_b r)
  | None => false
  end.

(** field_value_constraints.hpp:182 *)
Definition in_closed (rs : list range) (v : Z) : bool :=
  match nth_error rs (candidate rs v) with
  | Some r => (r_a r <=? v) && (v <=? r_b r)
  | None => false
  end.

(** The constructors (field_value_constraints.hpp:149-153, 169-173): [std::sort] by
    the lower end, which leaves open how it arranges equal ones.  [out] is a possible
    outcome. *)
Definition sorted_from (rs out : list range) : Prop :=
  Permutation rs out /\
  forall i j d, (i < j)%nat -> (j < length out)%nat -> r_a (nth i out d) <= r_a (nth j out d).
