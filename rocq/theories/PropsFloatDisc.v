(** * Discriminants and match values that are not both integers

    [match_field<"n">] takes a field of any type and [match_case] a value of any
    (include/type_deduction/switch/match_case.hpp:8-13).  The reader compares with [==]
    (switch_impl.hpp:12-20); the writer goes by way of [std::size_t]
    (include/field_write/derived_value.hpp:41-69).
    [nd_struct_cast], [nd_stream_cast]: [struct_cast] and [stream_cast] of a field [n], a
    union [id] switched on it and the fields [post] (FloatDisc.v).  [switched]: this schema
    with any guide; [settled len i]: the guide that always takes alternative [i].
    [chooses], [carries], [narrow], [whole_num]: FloatDiscSpec.v. *)
From Coq Require Import Lia ZifyBool ZifyNat.
From Verif Require Import Read Write WSpec FloatSpec PropDefs Typing Examples.
From Verif Require Import ReadFinal FloatDisc FloatDiscSpec FloatDiscFacts.
Local Open Scope list_scope.

(** ** C107: with integers on both sides nothing is new. *)
Theorem C107_same : forall c n s w id cases al k post,
  (forall S alloc st o st' ev,
   rrun S alloc (struct_cast c (switched n (TScalar s) w id (GField n s cases) al k post)) st = (o, st', ev) ->
   o <> Stuck ->
   rrun S alloc (nd_struct_cast c n (TScalar s) w id (ints cases) al k post) st = (o, st', ev)) /\
  (forall vs o out,
   wmem (stream_cast c (switched n (TScalar s) w id (GField n s cases) al k post) vs) = (o, out) ->
   o <> Stuck ->
   wmem (nd_stream_cast c n (TScalar s) w id (ints cases) al k post vs) = (o, out)).
Proof.
  exact (fun c n s w id cases al k post =>
    conj (nd_read_same c n s w id cases al k post) (nd_write_same c n s w id cases al k post)).
Qed.
Print Assumptions C107_same.

(** The alternative is that of the first match value the field's value is equal to, both
    converted to the type C++ compares them in; if there is none, the union's error is
    [type_deduction_failure], and nothing after the field is consumed. *)
Theorem C107_read : forall c n t w id cases al k post bs v rest,
  rmem (struct_cast c (FCons n (FFixed t w) CNone FNil)) bs = (Ok [v], rest) ->
  (forall i, chooses t v cases i ->
   rmem (nd_struct_cast c n t w id cases al k post) bs =
   rmem (fl_struct_cast c (switched n t w id (settled (length cases) i) al k post)) bs) /\
  (chooses_none t v cases ->
   rmem (nd_struct_cast c n t w id cases al k post) bs = (Err (TypeDeductionFailure, id), rest)).
Proof. exact nd_read. Qed.
Print Assumptions C107_read.

(** Where nothing else names [n], writing puts out, in place of what the struct holds for
    it, what the match value becomes by way of [std::size_t]; if it cannot be had back from
    there, [validation_failure]. *)
Theorem C107_write : forall c n t w id cases al k post v0 i x vs m z,
  wf_ty [] (FFixed t w) = true -> (1 <= c_szw c <= 8)%nat -> NoDup (n :: id :: f_ids post) ->
  is_derived post n = false -> alts_target al n = false -> has_cond_obligation post n = false ->
  ct_ok t v0 -> length vs = f_len post ->
  nth_error cases i = Some m -> to_size_t (c_szw c) m = Some z -> narrow c t w z ->
  (forall d, carries c t w z d -> exists o out,
     wmem (nd_stream_cast c n t w id cases al k post (v0 :: VAlt i x :: vs)) =
       (o, enc_fields (c_wire c) (FCons n (FFixed t w) CNone FNil) [d] ++ out) /\
     wmem (fl_stream_cast c (switched n t w id (settled (length cases) i) al k post) (v0 :: VAlt i x :: vs)) =
       (o, enc_fields (c_wire c) (FCons n (FFixed t w) CNone FNil) [v0] ++ out)) /\
  ((forall d, ~ carries c t w z d) ->
     wmem (nd_stream_cast c n t w id cases al k post (v0 :: VAlt i x :: vs)) = (Err (ValidationFailure, n), [])).
Proof. exact nd_write. Qed.
Print Assumptions C107_write.

(** A message whose discriminant is what its match value is carried as goes out as it is,
    and reads back exactly if the reader chooses that alternative for it. *)
Theorem C107_back : forall c n t w id cases al k post i d x vs m z,
  (1 <= c_szw c <= 8)%nat ->
  let fs := switched n t w id (settled (length cases) i) al k post in
  wf fs = true -> typed fs = true -> reversible c fs = true -> valid c fs (d :: VAlt i x :: vs) ->
  is_derived post n = false -> alts_target al n = false -> has_cond_obligation post n = false ->
  nth_error cases i = Some m -> to_size_t (c_szw c) m = Some z -> narrow c t w z -> carries c t w z d ->
  wmem (nd_stream_cast c n t w id cases al k post (d :: VAlt i x :: vs)) =
    (Ok tt, enc_fields (c_wire c) fs (d :: VAlt i x :: vs)) /\
  forall rest,
    rmem (nd_struct_cast c n t w id cases al k post) (enc_fields (c_wire c) fs (d :: VAlt i x :: vs) ++ rest) =
      (Ok (d :: VAlt i x :: vs), rest) <-> chooses t d cases i.
Proof. exact nd_valid. Qed.
Print Assumptions C107_back.

(** Which it does for a floating-point field if the match values are distinct whole numbers
    of the field's format. *)
Theorem C107_whole : forall w eb mb c cases zs i z d,
  is_fmt w eb mb -> Forall2 whole_num cases zs -> NoDup zs -> Forall (exact_in w) zs ->
  nth_error zs i = Some z -> carries c (TFloat w) w z d -> chooses (TFloat w) d cases i.
Proof. exact whole_chooses. Qed.
Print Assumptions C107_whole.

Theorem C107_whole_size : forall c m z, whole_num m z -> z < pow256 (c_szw c) ->
  to_size_t (c_szw c) m = Some z.
Proof. exact size_of_whole. Qed.
Print Assumptions C107_whole_size.

(** A [float] and one byte or two. *)
Definition narrow_or_wide : alts :=
  ACons (FFixed (TScalar (SInt 1 false)) 1) CNone (ACons (FFixed (TScalar (SInt 2 false)) 2) CNone ANil).

Definition one_byte : alts := ACons (FFixed (TScalar (SInt 1 false)) 1) CNone ANil.

(** Match values [1] and [2.0f]. *)
Definition one_two : list mval := [MInt (SInt 4 true) 1; MFloat 4 0x40000000].

Example C107_case :
  rmem (struct_cast le64 (FCons "n" (FFixed (TFloat 4) 4) CNone FNil)) [0; 0; 0; 0x40; 7; 8; 9] =
    (Ok [VF 4 0x40000000], [7; 8; 9]) /\
  chooses (TFloat 4) (VF 4 0x40000000) one_two 1 /\
  rmem (nd_struct_cast le64 "n" (TFloat 4) 4 "u" one_two narrow_or_wide CNone FNil) [0; 0; 0; 0x40; 7; 8; 9] =
    (Ok [VF 4 0x40000000; VAlt 1 (VZ 0x0807)], [9]) /\
  rmem (nd_struct_cast le64 "n" (TFloat 4) 4 "u" one_two narrow_or_wide CNone FNil) [0; 0; 0xC0; 0x7F; 7; 8; 9] =
    (Err (TypeDeductionFailure, "u"), [7; 8; 9]) /\
  wmem (nd_stream_cast le64 "n" (TFloat 4) 4 "u" one_two narrow_or_wide CNone FNil [VF 4 0; VAlt 0 (VZ 7)]) =
    (Ok tt, [0; 0; 0x80; 0x3F; 7]) /\
  (let fs := switched "n" (TFloat 4) 4 "u" (settled 2 1) narrow_or_wide CNone FNil in
   wf fs = true /\ typed fs = true /\ reversible le64 fs = true /\
   valid le64 fs [VF 4 0x40000000; VAlt 1 (VZ 0x0807)]) /\
  carries le64 (TFloat 4) 4 2 (VF 4 0x40000000) /\ narrow le64 (TFloat 4) 4 2 /\
  Forall2 whole_num one_two [1; 2] /\ Forall (exact_in 4) [1; 2].
Proof.
  split; [reflexivity|]. split.
  { exists (MFloat 4 0x40000000). split; [reflexivity|]. split.
    - exists (MFloat 4 0x40000000). split; [reflexivity|]. constructor. split; [reflexivity|]. vm_compute. discriminate.
    - intros [|j] m Hj Hm; [|lia]. inversion Hm; subst. intros E. apply num_eqb_iff in E.
      vm_compute in E. discriminate. }
  split; [reflexivity|]. split; [reflexivity|]. split; [reflexivity|]. split.
  { split; [reflexivity|]. split; [reflexivity|]. split; [reflexivity|].
    apply (read_sound le64 _ [0; 0; 0; 0x40; 7; 8] _ []); [reflexivity| |reflexivity].
    repeat constructor; discriminate. }
  split; [constructor; [discriminate|reflexivity|reflexivity|reflexivity]|].
  split; [right; exists 8, 23; split; [reflexivity|]; split; [left; auto|reflexivity]|].
  split; [repeat constructor; discriminate|].
  repeat constructor; [exists 0x3F800000|exists 0x40000000]; split; try split; try discriminate; reflexivity.
Qed.

(** A message with an integer discriminant. *)
Example C107_same_case :
  rmem (struct_cast le64 (switched "n" (TScalar (SInt 1 false)) 1 "u"
    (GField "n" (SInt 1 false) [(SInt 4 true, 1); (SInt 4 true, 2)]) narrow_or_wide CNone FNil)) [2; 7; 8] =
    (Ok [VZ 2; VAlt 1 (VZ 0x0807)], []) /\
  rmem (nd_struct_cast le64 "n" (TScalar (SInt 1 false)) 1 "u"
    (ints [(SInt 4 true, 1); (SInt 4 true, 2)]) narrow_or_wide CNone FNil) [2; 7; 8] =
    (Ok [VZ 2; VAlt 1 (VZ 0x0807)], []).
Proof. vm_compute. auto. Qed.

(** A [float] matched against 1.5: a message with it is read, but goes out again with 1, and
    is then not read. *)
Theorem C107_fraction_refuted : exists cases bs vs out,
  rmem (nd_struct_cast le64 "n" (TFloat 4) 4 "u" cases one_byte CNone FNil) bs = (Ok vs, []) /\
  wmem (nd_stream_cast le64 "n" (TFloat 4) 4 "u" cases one_byte CNone FNil vs) = (Ok tt, out) /\
  rmem (nd_struct_cast le64 "n" (TFloat 4) 4 "u" cases one_byte CNone FNil) out =
    (Err (TypeDeductionFailure, "u"), [7]).
Proof.
  exists [MFloat 4 0x3FC00000], [0; 0; 0xC0; 0x3F; 7], [VF 4 0x3FC00000; VAlt 0 (VZ 7)], [0; 0; 0x80; 0x3F; 7].
  vm_compute. auto.
Qed.
Print Assumptions C107_fraction_refuted.

(** So does an integer matched against 1.5: it can be written, and never read. *)
Theorem C107_integer_refuted : exists cases,
  wmem (nd_stream_cast le64 "n" (TScalar (SInt 1 false)) 1 "u" cases one_byte CNone FNil [VZ 0; VAlt 0 (VZ 7)]) =
    (Ok tt, [1; 7]) /\
  rmem (nd_struct_cast le64 "n" (TScalar (SInt 1 false)) 1 "u" cases one_byte CNone FNil) [1; 7] =
    (Err (TypeDeductionFailure, "u"), [7]).
Proof. exists [MFloat 8 0x3FF8000000000000]. vm_compute. auto. Qed.
Print Assumptions C107_integer_refuted.

(** A [double] matched against -1: a message with it is read, and writing it is undefined:
    2^64 - 1 becomes 2^64, which is no [std::size_t]. *)
Theorem C107_undefined_refuted : exists cases bs vs,
  rmem (nd_struct_cast le64 "n" (TFloat 8) 8 "u" cases one_byte CNone FNil) bs = (Ok vs, []) /\
  wmem (nd_stream_cast le64 "n" (TFloat 8) 8 "u" cases one_byte CNone FNil vs) = (UB, []).
Proof.
  exists [MInt (SInt 4 true) (-1)], [0; 0; 0; 0; 0; 0; 0xF0; 0xBF; 7], [VF 8 0xBFF0000000000000; VAlt 0 (VZ 7)].
  vm_compute. auto.
Qed.
Print Assumptions C107_undefined_refuted.

(** Match values that are distinct integers, one of them not in the format: both are equal to
    2^24, the first is chosen, and a message of the second is read as one of the first. *)
Theorem C107_rounded_refuted : exists cases out,
  wmem (nd_stream_cast le64 "n" (TFloat 4) 4 "u" cases narrow_or_wide CNone FNil [VF 4 0; VAlt 1 (VZ 0x0807)]) =
    (Ok tt, out) /\
  rmem (nd_struct_cast le64 "n" (TFloat 4) 4 "u" cases narrow_or_wide CNone FNil) out =
    (Ok [VF 4 0x4B800000; VAlt 0 (VZ 7)], [8]).
Proof.
  exists [MInt (SInt 4 true) 16777217; MInt (SInt 4 true) 16777216], [0; 0; 0x80; 0x4B; 7; 8].
  vm_compute. auto.
Qed.
Print Assumptions C107_rounded_refuted.

(** A [float] matched against 0: -0 is read and goes out again as 0. *)
Theorem C107_zero_refuted : exists cases bs vs out,
  rmem (nd_struct_cast le64 "n" (TFloat 4) 4 "u" cases one_byte CNone FNil) bs = (Ok vs, []) /\
  wmem (nd_stream_cast le64 "n" (TFloat 4) 4 "u" cases one_byte CNone FNil vs) = (Ok tt, out) /\ out <> bs.
Proof.
  exists [MInt (SInt 4 true) 0], [0; 0; 0; 0x80; 7], [VF 4 0x80000000; VAlt 0 (VZ 7)], [0; 0; 0; 0; 7].
  vm_compute. repeat split; auto. discriminate.
Qed.
Print Assumptions C107_zero_refuted.
