(** * Vocabulary for discriminants and match values that are not both integers *)
From Verif Require Export FloatDisc FloatLenSpec FloatSpec GuideSpec.
Local Open Scope list_scope.
Local Open Scope Z_scope.

(** The operands are equal once converted: integers to their common type ([cxx_eq], C17),
    an integer to the other's floating-point type ([fround], C101), a narrow floating-point
    number to a wide one, which changes nothing. *)
Inductive equal_num : mval -> mval -> Prop :=
| en_int : forall s x r y, cxx_eq s x r y = true -> equal_num (MInt s x) (MInt r y)
| en_left : forall s x w y, fequal (fround w (FFin (units x))) (fdec w y) ->
    equal_num (MInt s x) (MFloat w y)
| en_right : forall s x w y, fequal (fdec w y) (fround w (FFin (units x))) ->
    equal_num (MFloat w y) (MInt s x)
| en_float : forall u x w y, fequal (fdec u x) (fdec w y) -> equal_num (MFloat u x) (MFloat w y).

(** Case [i] is the first the value is equal to. *)
Definition chooses (t : ctype) (v : val) (cases : list mval) (i : nat) : Prop :=
  exists a, as_num t v = Some a /\
    (exists m, nth_error cases i = Some m /\ equal_num a m) /\
    forall j m, (j < i)%nat -> nth_error cases j = Some m -> ~ equal_num a m.

Definition chooses_none (t : ctype) (v : val) (cases : list mval) : Prop :=
  exists a, as_num t v = Some a /\ Forall (fun m => ~ equal_num a m) cases.

(** A union of [len] alternatives that takes the one numbered [i], whatever the fields. *)
Definition settled (len i : nat) : guide :=
  GLadder (map (fun j => (fun _ => Nat.eqb j i, [])) (seq 0 len)).

(** What becomes of the [std::size_t] [z] in a field of type [t] and [w] bytes: [v], from
    which [z] can be had back. *)
Inductive carries (c : cfg) : ctype -> nat -> Z -> val -> Prop :=
| ca_int : forall s w z, ((w < c_szw c)%nat -> z < pow256 w) -> conv s z mod pow256 (c_szw c) = z ->
    carries c (TScalar s) w z (VZ (conv s z))
| ca_float : forall w z y, 0 <= y -> 2 * y < pow256 w -> fdec w y = FFin (units z) ->
    ((w < c_szw c)%nat -> z < pow256 w) ->
    carries c (TFloat w) w z (VF w y).

(** A match value that is the whole number [z], and not negative. *)
Inductive whole_num : mval -> Z -> Prop :=
| wn_int : forall s z, 0 <= z -> whole_num (MInt s z) z
| wn_float : forall w y z, 0 <= z -> fdec w y = FFin (units z) -> whole_num (MFloat w y) z.

(** The field [n] of type [t] and [w] bytes, the union [id] guided by [g], and the rest. *)
Definition switched (n : ident) (t : ctype) (w : nat) (id : ident) (g : guide) (al : alts)
  (k : constr) (post : fields) : fields :=
  FCons n (FFixed t w) CNone (FCons id (FUnion g al) k post).

(** Integer fields, and floating-point fields for numbers below half the range of
    [std::size_t]: converting back and comparing is defined. *)
Definition narrow (c : cfg) (t : ctype) (w : nat) (z : Z) : Prop :=
  (exists s, t = TScalar s) \/
  (exists eb mb, t = TFloat w /\ is_fmt w eb mb /\ 2 * z < pow256 (c_szw c)).

(** Match values that are integers, as Read.v and Write.v have them. *)
Definition ints (cases : list (sty * Z)) : list mval := map (fun m => MInt (fst m) (snd m)) cases.
