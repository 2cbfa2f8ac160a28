(** * C117: which schemas are well typed *)
From Coq Require Import String.
From Verif Require Import Read Write Spec Typing TypedSpec TypedFacts Examples.
Import ListNotations.
Open Scope string_scope.
Open Scope list_scope.
Open Scope Z_scope.

(** A schema is well typed if and only if each field that occurs in it, at whatever depth,
    takes its length or tag from an integer declared before it in the same struct, has as
    many cases as alternatives, nests no optional field or union directly, and is
    constrained by literals its values can be compared with. *)
Theorem C117_typed : forall fs,
  typed fs = true <-> forall G t k, occurs [] fs G t k -> type_fits G t /\ constraint_fits t k.
Proof. exact typed_fits. Qed.
Print Assumptions C117_typed.

(** The schemas for which reading is shown to be free of undefined behaviour (C30) are those
    in which no [bool] is read, no string compared and no floating-point number compared
    with an integer, at whatever depth. *)
Theorem C117_plain : forall fs,
  plain_fields fs = true <-> forall G t k, occurs [] fs G t k -> no_bools t /\ no_such_literal t k.
Proof. exact plain_fits. Qed.
Print Assumptions C117_plain.

(** ** A schema with every kind of field *)

Definition ty_point : fields :=
  FCons "x" (fixed u16) (CCmp OLt u16 100) (FCons "y" (FFixed (TFloat 4) 4) CNone FNil).
Definition ty_one (t : fty) (k : constr) : fields :=
  FCons "n" (fixed u16) CNone (FCons "f" t k FNil).
Definition ty_all : fields :=
  FCons "n" (fixed u16) (CAny u16 [1; 2])
 (FCons "tag" (FFixed (TFixStr 2) 3) (CStr false [65; 0; 0])
 (FCons "g" (FFixed (TArr 2 (TScalar u8)) 2) (CArr false (VSeq [VZ 1; VZ 0]))
 (FCons "v" (FVar (TScalar u8) (LenField "n") None) (CArr true (VSeq [VZ 1]))
 (FCons "ps" (FVecRec ty_point 8 (LenField "n") None) CNone
 (FCons "o" (FMaybe (fixed u32) (fun _ => true) []) CNone
 (FCons "u" (FUnion (GField "n" u16 [(u16, 1); (u16, 2)])
               (ACons (fixed u8) (CCmp OEq u8 7) (ACons (FStruct ty_point) CNone ANil))) CNone FNil)))))).

(** Fields of the record and of an alternative occur in it, [y] with [x] before it. *)
Example C117_case :
  typed ty_all = true /\ plain_fields ty_all = false /\
  plain_fields (ty_one (FUnion (GField "n" u16 [(u16, 1)]) (ACons (FStruct ty_point) CNone ANil)) CNone) = true /\
  (exists G, occurs [] ty_all G (fixed u8) (CCmp OEq u8 7)) /\
  occurs [] ty_all [("x", fixed u16)] (FFixed (TFloat 4) 4) CNone.
Proof.
  do 3 (split; [reflexivity|]). split.
  - eexists. unfold ty_all. do 6 apply occ_later. apply occ_inside. apply in_choice. left. reflexivity.
  - unfold ty_all. do 4 apply occ_later. apply occ_inside. apply in_vec. apply occ_later. apply occ_here.
Qed.

(** Turned down: a length from an optional field, from a field of another struct or from a
    later one; fewer cases than alternatives; an optional optional field; a literal outside
    its type; a string without its end; an array of another length. *)
Example C117_no :
  map typed
    [FCons "o" (FMaybe (fixed u8) (fun _ => true) []) CNone (FCons "v" (FVar (TScalar u8) (LenField "o") None) CNone FNil);
     FCons "s" (FStruct ty_point) CNone (FCons "v" (FVar (TScalar u8) (LenField "x") None) CNone FNil);
     FCons "v" (FVar (TScalar u8) (LenField "n") None) CNone (FCons "n" (fixed u8) CNone FNil);
     ty_one (FUnion (GField "n" u16 [(u16, 1)]) (ACons (fixed u8) CNone (ACons (fixed u16) CNone ANil))) CNone;
     ty_one (FUnion (GField "n" u8 [(u8, 1)]) (ACons (fixed u8) CNone ANil)) CNone;
     ty_one (FMaybe (FMaybe (fixed u8) (fun _ => true) []) (fun _ => true) []) CNone;
     ty_one (fixed u8) (CCmp OEq u8 256);
     ty_one (FFixed (TFixStr 1) 2) (CStr false [65; 66]);
     ty_one (FFixed (TArr 2 (TScalar u8)) 2) (CArr false (VSeq [VZ 1]));
     ty_one (FVar (TScalar u8) (LenField "n") None) (CArr false (VZ 1));
     ty_one (FStruct ty_point) (CCmp OEq u8 1)]
  = repeat false 11.
Proof. reflexivity. Qed.
