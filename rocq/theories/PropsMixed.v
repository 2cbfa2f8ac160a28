(** * Literals of another kind than the field

    [constraint_option_like] (field_options.hpp:40) asks that the constraint can be called
    with the field's value, and a C++ number converts to any other: [lt{100}] compiles on
    a field of [float]s, [gt{0.5}] on one of integers and [gt{1.0f}] on one of [double]s.
    ([basic_field] takes integers only; floating-point numbers are alternatives of a
    variance, [as_trivial<float, 4_B, lt{100}>], or fields spelled with [field], as in
    test/internals/traits_ct.cpp:109.)
    [int_of s v z], [whole_part], [float_of w v x]: the number compared (Spec.v).
    [nearest], [stands_for], [is_fmt]: FloatSpec.v.  [units z] is z in units of 1/2^1074. *)
From Verif Require Import Read Write WSpec FloatSpec PropDefs Typing Examples.
From Verif Require Import ReadFacts FloatFacts MixedFacts.
Local Open Scope list_scope.

(** ** C101: what an integer literal on a field of floating-point numbers compares. *)
Theorem C101_integer : forall c id t o s lit bs v rest,
  rmem (struct_cast c (FCons id t CNone FNil)) bs = (Ok [v], rest) -> (exists u y, v = VF u y) ->
  ((forall z, ~ int_of s v z) ->
   rmem (struct_cast c (FCons id t (CCmp o s lit) FNil)) bs = (UB, rest)) /\
  (forall z, int_of s v z -> cmp_holds o z lit ->
   rmem (struct_cast c (FCons id t (CCmp o s lit) FNil)) bs = (Ok [v], rest)) /\
  (forall z, int_of s v z -> ~ cmp_holds o z lit ->
   rmem (struct_cast c (FCons id t (CCmp o s lit) FNil)) bs = (Err (ValidationFailure, id), rest)).
Proof. exact mixed_none. Qed.
Print Assumptions C101_integer.

Theorem C101_integers : forall c id t s lits bs v rest,
  rmem (struct_cast c (FCons id t CNone FNil)) bs = (Ok [v], rest) -> (exists u y, v = VF u y) ->
  ((forall z, ~ int_of s v z) ->
   rmem (struct_cast c (FCons id t (CAny s lits) FNil)) bs = (UB, rest)) /\
  (forall z, int_of s v z -> In z lits ->
   rmem (struct_cast c (FCons id t (CAny s lits) FNil)) bs = (Ok [v], rest)) /\
  (forall z, int_of s v z -> ~ In z lits ->
   rmem (struct_cast c (FCons id t (CAny s lits) FNil)) bs = (Err (ValidationFailure, id), rest)).
Proof. exact mixed_any. Qed.
Print Assumptions C101_integers.

(** There is no number to compare, and the behaviour is undefined, exactly for NaNs, the
    infinities, and numbers whose whole part the literal's type does not have. *)
Theorem C101_undefined : forall w sg u y,
  (forall z, ~ int_of (SInt w sg) (VF u y) z) <->
  fdec u y = FNaN \/ (exists b, fdec u y = FInf b) \/
  exists n z, fdec u y = FFin n /\ whole_part n z /\ sc_in (SInt w sg) z = false.
Proof. exact no_int. Qed.
Print Assumptions C101_undefined.

(** What the comparisons say of the number itself.  [lt] and [gte] are right for positive
    literals only, [gt] and [lte] for negative ones only, and [eq] never. *)
Theorem C101_fraction : forall n z lit, whole_part n z ->
  (0 < lit -> (z < lit <-> n < units lit)) /\ (lit <= 0 -> (z < lit <-> n <= units (lit - 1))) /\
  (lit < 0 -> (lit < z <-> units lit < n)) /\ (0 <= lit -> (lit < z <-> units (lit + 1) <= n)) /\
  (0 < lit -> (z = lit <-> units lit <= n < units (lit + 1))) /\
  (z = 0 <-> units (-1) < n < units 1) /\
  (lit < 0 -> (z = lit <-> units (lit - 1) < n <= units lit)).
Proof. exact whole_compare. Qed.
Print Assumptions C101_fraction.

(** Conversions to a floating-point type give the nearest number, or an infinity if that
    would be 2^128, or 2^1024, or more. *)
Theorem C101_nearest : forall w eb mb n m, is_fmt w eb mb ->
  fround w (FFin n) = FFin m -> nearest w n (fenc w n).
Proof. exact fround_nearest. Qed.
Print Assumptions C101_nearest.

Theorem C101_overflow : forall n,
  (units (2 ^ 128 - 2 ^ 103) <= Z.abs n <-> fround 4 (FFin n) = FInf (n <? 0)) /\
  (Z.abs n < units (2 ^ 128 - 2 ^ 103) <-> exists m, fround 4 (FFin n) = FFin m) /\
  (units (2 ^ 1024 - 2 ^ 970) <= Z.abs n <-> fround 8 (FFin n) = FInf (n <? 0)) /\
  (Z.abs n < units (2 ^ 1024 - 2 ^ 970) <-> exists m, fround 8 (FFin n) = FFin m).
Proof. exact fround_overflow. Qed.
Print Assumptions C101_overflow.

(** Numbers of the format are themselves, among them all whole numbers up to 2^24 and
    2^53. *)
Theorem C101_exact : forall w eb mb, is_fmt w eb mb ->
  (forall z n, 0 <= z < pow256 w -> fdec w z = FFin n -> fround w (FFin n) = FFin n) /\
  (forall z, Z.abs z <= 2 ^ (mb + 1) -> fround w (FFin (units z)) = FFin (units z)).
Proof. exact fround_exact. Qed.
Print Assumptions C101_exact.

(** A floating-point literal on a field of integers, or of wider numbers: what [lt] and
    [gt] admit is less, and greater, whatever is lost; [lte] and [any_of] admit all they
    should. *)
Theorem C101_float : forall w eb mb lit m v n, is_fmt w eb mb -> 0 <= lit < pow256 w ->
  fdec w lit = FFin m -> stands_for v n ->
  (holds (CFCmp OLt w lit) v -> n < m) /\ (holds (CFCmp OGt w lit) v -> m < n) /\
  (n <= m -> holds (CFCmp OLte w lit) v) /\
  (forall lits, In lit lits -> n = m -> holds (CFAny w lits) v).
Proof. exact float_sides. Qed.
Print Assumptions C101_float.

Definition one (t : ctype) (k : constr) : fields := FCons "t" (FFixed t (csize t)) k FNil.
Definition int4 : sty := SInt 4 true.

Example C101_case :
  (* lt{100}: 99.5 is admitted, 100 is not *)
  wf (one (TFloat 4) (CCmp OLt int4 100)) = true /\ typed (one (TFloat 4) (CCmp OLt int4 100)) = true /\
  rmem (struct_cast le64 (one (TFloat 4) CNone)) [0; 0; 0xC7; 0x42] = (Ok [VF 4 0x42C70000], []) /\
  int_of int4 (VF 4 0x42C70000) 99 /\
  rmem (struct_cast le64 (one (TFloat 4) (CCmp OLt int4 100))) [0; 0; 0xC7; 0x42] = (Ok [VF 4 0x42C70000], []) /\
  rmem (struct_cast le64 (one (TFloat 4) (CCmp OLt int4 100))) [0; 0; 0xC8; 0x42] =
    (Err (ValidationFailure, "t"), []) /\
  rmem (struct_cast le64 (one (TFloat 4) (CAny int4 [7; 99]))) [0; 0; 0xC7; 0x42] = (Ok [VF 4 0x42C70000], []) /\
  whole_part (- 3 * 2 ^ 1073) (-1) /\
  (* 2^24 + 1 is half way between two [float]s; 2^24 + 3 also *)
  fround 4 (FFin (units (2 ^ 24 + 1))) = FFin (units (2 ^ 24)) /\
  fround 4 (FFin (units (2 ^ 24 + 3))) = FFin (units (2 ^ 24 + 4)) /\
  nearest 4 (units (2 ^ 24 + 1)) 0x4B800000 /\
  fround 4 (FFin (units (2 ^ 128 - 2 ^ 103 - 1))) = FFin (units (2 ^ 128 - 2 ^ 104)) /\
  fround 8 (FFin (units (- (2 ^ 63)))) = FFin (units (- (2 ^ 63))) /\
  (* gt{0.5} on an [int] *)
  holds (CFCmp OGt 8 0x3FE0000000000000) (VZ 1) /\ stands_for (VZ 1) (units 1) /\
  rmem (struct_cast le64 (one (TScalar int4) (CFCmp OGt 8 0x3FE0000000000000))) [0; 0; 0; 0] =
    (Err (ValidationFailure, "t"), []).
Proof.
  repeat match goal with |- _ /\ _ => split end;
    match goal with |- @eq _ _ _ => vm_compute; reflexivity | _ => idtac end.
  - apply as_int_iff. vm_compute. reflexivity.
  - apply whole_part_iff. vm_compute. reflexivity.
  - change (nearest 4 (units (2 ^ 24 + 1)) (fenc 4 (units (2 ^ 24 + 1)))).
    apply fround_nearest with (eb := 8) (mb := 23) (m := units (2 ^ 24)); [left; auto|vm_compute; reflexivity].
  - apply check_holds. vm_compute. reflexivity.
  - constructor.
Qed.

(** A message is enough for undefined behaviour: NaN in a field with [lt{100}]. *)
Theorem C101_undefined_refuted : exists bs, Forall byte_ok bs /\
  wf (one (TFloat 4) (CCmp OLt int4 100)) = true /\ typed (one (TFloat 4) (CCmp OLt int4 100)) = true /\
  rmem (struct_cast le64 (one (TFloat 4) (CCmp OLt int4 100))) bs = (UB, []).
Proof. exists [0; 0; 0xC0; 0x7F]. split; [repeat constructor; unfold byte_ok; lia|]. vm_compute. auto. Qed.
Print Assumptions C101_undefined_refuted.

(** The same in a variance with [as_trivial<float, 4_B, lt{100}>]. *)
Definition reading : fields :=
  FCons "kind" (fixed u8) CNone
  (FCons "u" (FUnion (GField "kind" u8 [(i32, 1); (i32, 2)])
               (ACons (fixed u16) CNone (ACons (FFixed (TFloat 4) 4) (CCmp OLt int4 100) ANil))) CNone FNil).

Theorem C101_variance_refuted : exists bs, Forall byte_ok bs /\
  wf reading = true /\ typed reading = true /\ rmem (struct_cast le64 reading) bs = (UB, []) /\
  rmem (struct_cast le64 reading) [2; 0; 0; 0xC7; 0x42] = (Ok [VZ 2; VAlt 1 (VF 4 0x42C70000)], []).
Proof.
  exists [2; 0; 0; 0xC0; 0x7F]. split; [repeat constructor; unfold byte_ok; lia|]. vm_compute. auto.
Qed.
Print Assumptions C101_variance_refuted.

(** -0.5 is not [gte{0}], nor 100.5 [lte{100}]; 0.5 is [gt{0}]. *)
Theorem C101_fraction_refuted :
  (exists v n, stands_for v n /\ n < units 0 /\
     rmem (struct_cast le64 (one (TFloat 4) (CCmp OGte int4 0))) [0; 0; 0; 0xBF] = (Ok [v], [])) /\
  (exists v n, stands_for v n /\ units 100 < n /\
     rmem (struct_cast le64 (one (TFloat 4) (CCmp OLte int4 100))) [0; 0; 0xC9; 0x42] = (Ok [v], [])) /\
  (exists n, stands_for (VF 4 0x3F000000) n /\ units 0 < n /\
     rmem (struct_cast le64 (one (TFloat 4) CNone)) [0; 0; 0; 0x3F] = (Ok [VF 4 0x3F000000], []) /\
     rmem (struct_cast le64 (one (TFloat 4) (CCmp OGt int4 0))) [0; 0; 0; 0x3F] =
       (Err (ValidationFailure, "t"), [])).
Proof.
  repeat match goal with |- _ /\ _ => split end; repeat eexists; try apply nb_int; try apply nb_float;
    vm_compute; reflexivity.
Qed.
Print Assumptions C101_fraction_refuted.

(** [eq] on a floating-point field compiles, with an integer: 1.5 is read under [eq{1}],
    and written as 1. *)
Theorem C101_eq_refuted : exists bs vs out,
  wf (one (TFloat 4) (CCmp OEq int4 1)) = true /\ typed (one (TFloat 4) (CCmp OEq int4 1)) = true /\
  rmem (struct_cast le64 (one (TFloat 4) (CCmp OEq int4 1))) bs = (Ok vs, []) /\
  wmem (stream_cast le64 (one (TFloat 4) (CCmp OEq int4 1)) vs) = (Ok tt, out) /\ out <> bs.
Proof.
  exists [0; 0; 0xC0; 0x3F], [VF 4 0x3FC00000], [0; 0; 0x80; 0x3F].
  vm_compute. repeat split. discriminate.
Qed.
Print Assumptions C101_eq_refuted.

(** 2^24 + 1 is no [float]: what is written under [eq] of it cannot be read. *)
Theorem C101_pinned_refuted : exists vs out,
  wf (one (TFloat 4) (CCmp OEq int4 16777217)) = true /\
  typed (one (TFloat 4) (CCmp OEq int4 16777217)) = true /\
  wmem (stream_cast le64 (one (TFloat 4) (CCmp OEq int4 16777217)) vs) = (Ok tt, out) /\
  rmem (struct_cast le64 (one (TFloat 4) (CCmp OEq int4 16777217))) out = (Err (ValidationFailure, "t"), []).
Proof. exists [VF 4 0], [0; 0; 0x80; 0x4B]. vm_compute. repeat split. Qed.
Print Assumptions C101_pinned_refuted.

(** 2^53 + 1 is greater than 2^53, but not as a [double]; 1 + 2^-52 than 1, but not as a
    [float]. *)
Theorem C101_float_refuted :
  (exists v n, stands_for v n /\ units (2 ^ 53) < n /\ fdec 8 0x4340000000000000 = FFin (units (2 ^ 53)) /\
     rmem (struct_cast le64 (one (TScalar (SInt 8 true)) CNone)) [1; 0; 0; 0; 0; 0; 0x20; 0] = (Ok [v], []) /\
     rmem (struct_cast le64 (one (TScalar (SInt 8 true)) (CFCmp OGt 8 0x4340000000000000)))
       [1; 0; 0; 0; 0; 0; 0x20; 0] = (Err (ValidationFailure, "t"), [])) /\
  (exists v n, stands_for v n /\ units 1 < n /\ fdec 4 0x3F800000 = FFin (units 1) /\
     rmem (struct_cast le64 (one (TFloat 8) CNone)) [1; 0; 0; 0; 0; 0; 0xF0; 0x3F] = (Ok [v], []) /\
     rmem (struct_cast le64 (one (TFloat 8) (CFCmp OGt 4 0x3F800000)))
       [1; 0; 0; 0; 0; 0; 0xF0; 0x3F] = (Err (ValidationFailure, "t"), [])).
Proof.
  repeat match goal with |- _ /\ _ => split end; repeat eexists; try apply nb_int; try apply nb_float;
    vm_compute; reflexivity.
Qed.
Print Assumptions C101_float_refuted.
