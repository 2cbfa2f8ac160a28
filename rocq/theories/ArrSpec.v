(** * Vocabulary for comparisons of arrays *)
From Verif Require Export Spec.
Local Open Scope Z_scope.

(** The numbers in an array of any shape, in order. *)
Fixpoint numbers (v : val) : list val :=
  match v with VSeq l => flat_map numbers l | _ => [v] end.

Inductive number_equal : val -> val -> Prop :=
| ne_int : forall z, number_equal (VZ z) (VZ z)
| ne_float : forall w x u y, fequal (fdec w x) (fdec u y) -> number_equal (VF w x) (VF u y).

Inductive number_less : val -> val -> Prop :=
| nl_int : forall x y, x < y -> number_less (VZ x) (VZ y)
| nl_float : forall w x u y, fless (fdec w x) (fdec u y) -> number_less (VF w x) (VF u y).

(** Equal numbers up to a place where [a] has the smaller one. *)
Definition before (a b : val) : Prop :=
  exists p q x y s t, numbers a = p ++ x :: s /\ numbers b = q ++ y :: t /\
    Forall2 number_equal p q /\ number_less x y.

Definition same_numbers (a b : val) : Prop := Forall2 number_equal (numbers a) (numbers b).

(** No NaN in it. *)
Definition ordered (v : val) : Prop :=
  Forall (fun x => match x with VF w z => fdec w z <> FNaN | _ => True end) (numbers v).
