(** * Constraint classes and the small compile-time lists *)
From Coq Require Import String.
From Verif Require Export Kinds.
Local Open Scope list_scope.

(** ** Constraint classes
    include/field_validation/field_value_constraints.hpp:43-125. *)
Inductive cclass := KEq | KNeq | KLt | KGt | KLte | KGte | KNoConstraint | KAnyOf.

(** Whether [==] and [!=] (resp. the four order comparisons) of two values of the type
    compile and give a [bool]: built in for numbers; include/lib/containers/
    fixed_string.hpp:30-39 defines [==] and [!=] only; [std::array], [std::vector] and
    [std::string] compare elementwise. *)
Fixpoint x_eq (t : cxx) : bool :=
  match t with
  | XInt _ | XFloat _ | XFixStr _ | XString => true
  | XArray e _ | XVector e => x_eq e
  | _ => false
  end.

(** For include/field_validation/field_value_constraints.hpp:30-36. *)
Fixpoint x_ord (t : cxx) : bool :=
  match t with
  | XInt _ | XFloat _ | XString => true
  | XArray e _ | XVector e => x_ord e
  | _ => false
  end.

(** field_value_constraints.hpp:24-40 [equality_comparable], [comparable],
    [inequality_comparable]. *)
Definition equality_comparable (t : cxx) : bool := x_eq t && negb (x_floating t).
(** include/field_validation/field_value_constraints.hpp:30-36. *)
Definition comparable (t : cxx) : bool := x_ord t.
(** include/field_validation/field_value_constraints.hpp:38-40. *)
Definition inequality_comparable (t : cxx) : bool :=
  comparable t && (x_integral t || x_fixed_string t).

(** The constraint on the class template's parameter (43,66,74,82,90,98,106,113), and
    whether the body of [operator()] compiles (48,71,79,87,95,103,108-110,120-124).
    [lte] does not constrain its parameter (90).
    In the code: include/field_validation/field_value_constraints.hpp:43-113. *)
Definition class_constraint (c : cclass) (t : cxx) : bool :=
  match c with
  | KEq | KNeq => equality_comparable t
  | KLt | KGt => comparable t
  | KGte => inequality_comparable t
  | KLte | KNoConstraint | KAnyOf => true
  end.

(** include/field_validation/field_value_constraints.hpp:48,71,79,87,95,103,108,120. *)
Definition body_compiles (c : cclass) (t : cxx) : bool :=
  match c with
  | KEq | KNeq | KAnyOf => x_eq t
  | KLt | KGt | KLte | KGte => x_ord t
  | KNoConstraint => true
  end.

(** A constraint is a template argument, so its type has to be structural: numbers,
    and the classes all of whose members are public and structural.
    In the code: [constraint_on_value] at include/field/field.hpp:18-20. *)
Fixpoint x_structural (t : cxx) : bool :=
  match t with
  | XInt _ | XFloat _ | XFixStr _ => true
  | XArray e _ => x_structural e
  | _ => false
  end.

(** include/field/field_options.hpp:42-45 with include/field_validation/field_value_constraints.hpp:42-125. *)
Definition constraint_usable (c : cclass) (t : cxx) : bool :=
  class_constraint c t && body_compiles c t &&
  match c with KNoConstraint => true | _ => x_structural t end.

(** ** include/lib/metaprog/typelist.hpp:30-68: lists of types, here of any things with a
    decidable equality ([std::is_same_v]). *)
Section TypeLists.
Context {A : Type} (same : A -> A -> bool).

(** [any_of]: the specialisation for a head equal to the type searched for is the more
    specialised one.
    In the code: include/lib/metaprog/typelist.hpp:24-40. *)
Fixpoint tl_any_of (l : list A) (t : A) : bool :=
  match l with
  | [] => false
  | u :: rest => if same u t then true else false || tl_any_of rest t
  end.

(** [all_are_same]: for two and more, the first two and the rest.
    In the code: include/lib/metaprog/typelist.hpp:42-66. *)
Fixpoint tl_all_same (l : list A) : bool :=
  match l with
  | [] => true
  | t :: rest =>
      match rest with
      | [] => true
      | u :: _ => same t u && tl_all_same rest
      end
  end.
End TypeLists.

(** include/lib/metaprog/typelist.hpp:70-82 [front]; the empty list has the front [null]. *)
Definition tl_front {A} (null : A) (l : list A) : A :=
  match l with [] => null | t :: _ => t end.

(** ** include/lib/metaprog/fixed_string_list.hpp:37-99: lists of names. *)
Fixpoint fsl_size (l : list ident) : nat :=
  match l with [] => 0 | _ :: tail => 1 + fsl_size tail end.

(** include/lib/metaprog/fixed_string_list.hpp:64-78 [get]; [None]: no specialisation. *)
Fixpoint fsl_get (idx key : nat) (l : list ident) : option ident :=
  match l with
  | [] => None
  | head :: tail => if Nat.eqb idx key then Some head else fsl_get (idx + 1) key tail
  end.

(** include/lib/metaprog/fixed_string_list.hpp:80-99 [pop]. *)
Fixpoint fsl_pop (count : nat) (l : list ident) : list ident :=
  match l with
  | [] => []
  | head :: tail => match count with O => head :: tail | S n => fsl_pop n tail end
  end.

(** ** include/lib/containers/static_optional.hpp:11-44.  [d]: a value-initialised
    element. *)
Record static_optional (A : Type) := mkSOpt { so_value : A; so_has : bool }.
Arguments mkSOpt {A}. Arguments so_value {A}. Arguments so_has {A}.

(** include/lib/containers/static_optional.hpp:17-19. *)
Definition so_none {A} (d : A) : static_optional A := mkSOpt d false.            (* 17-19 *)
(** static_optional.hpp:20-21. *)
Definition so_of {A} (a : A) : static_optional A := mkSOpt a true.               (* 20-21 *)
(** static_optional.hpp:22-27. *)
Definition so_of_std {A} (d : A) (o : option A) : static_optional A :=           (* 22-27 *)
  match o with Some a => mkSOpt a true | None => mkSOpt d false end.
(** static_optional.hpp:33. *)
Definition so_to_bool {A} (o : static_optional A) : bool := so_has o.            (* 33 *)
(** static_optional.hpp:34-35. *)
Definition so_deref {A} (o : static_optional A) : A := so_value o.               (* 34 *)
(** include/lib/containers/static_optional.hpp:39-43 [operator==(static_nullopt_t&&)]. *)
Definition so_eq_nullopt {A} (o : static_optional A) : bool :=
  if so_has o then true else false.
