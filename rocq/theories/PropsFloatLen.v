(** * Floating-point lengths

    [len_from_field<"n">] asks that n is of fixed size (derived_value.hpp:219-223), not that
    it is an integer, and [deduce_field_size] (field_size_deduce.hpp:17-38) returns
    its value as a [std::size_t]: a [field<"n", float, 4_B, ...>] will do.
    [fl_struct_cast], [fl_stream_cast]: [struct_cast] and [stream_cast] with such lengths
    (FloatLen.v).  [computed_fields], [container], [counted], [exact_in]: FloatLenSpec.v.
    [int_of (SInt (c_szw c) false) (VF w z) m]: m is the whole part of the number, and a
    [std::size_t] (Spec.v). *)
From Verif Require Import Read Write WSpec FloatSpec PropDefs Typing Examples.
From Verif Require Import ReadFacts FloatFacts MixedFacts FloatLenSpec FloatLenFacts StaticSpec.
Local Open Scope list_scope.

(** ** C106: where no length is a floating-point number, nothing is new, on any stream and
    with any allocator. *)
Theorem C106_same : forall c fs,
  (forall S alloc s o s' ev, rrun S alloc (struct_cast c fs) s = (o, s', ev) -> o <> Stuck ->
     rrun S alloc (fl_struct_cast c fs) s = (o, s', ev)) /\
  (forall vs S s o s' ch, wrun S (stream_cast c fs vs) s = (o, s', ch) -> o <> Stuck ->
     wrun S (fl_stream_cast c fs vs) s = (o, s', ch)).
Proof. exact (fun c fs => conj (fl_cast_same c fs) (fl_stream_same c fs)). Qed.
Print Assumptions C106_same.

(** A read that is not undefined is that of the schema whose lengths are spelled as
    computations, calls to the stream and allocations included. *)
Theorem C106_computed : forall c fs S alloc s o s' ev,
  rrun S alloc (fl_struct_cast c fs) s = (o, s', ev) -> o <> Stuck -> o <> UB ->
  rrun S alloc (struct_cast c (computed_fields c fs)) s = (o, s', ev).
Proof. exact fl_cast_computed. Qed.
Print Assumptions C106_computed.

Theorem C106_sound : forall c fs bs vs rest,
  wf (computed_fields c fs) = true -> Forall byte_ok bs ->
  rmem (fl_struct_cast c fs) bs = (Ok vs, rest) ->
  valid c (computed_fields c fs) vs /\ bs = enc_fields (c_wire c) (computed_fields c fs) vs ++ rest.
Proof. exact fl_read_sound. Qed.
Print Assumptions C106_sound.

(** A number and a container of that length: undefined if the number has no whole part
    that is a [std::size_t], else as if the whole part had been given. *)
Theorem C106_read : forall c n w id t k post bs z rest, container t -> n <> id ->
  rmem (struct_cast c (FCons n (FFixed (TFloat w) w) CNone FNil)) bs = (Ok [VF w z], rest) ->
  ((forall m, ~ int_of (SInt (c_szw c) false) (VF w z) m) ->
   rmem (fl_struct_cast c
     (FCons n (FFixed (TFloat w) w) CNone (FCons id (t (LenField n)) k post))) bs = (UB, rest)) /\
  (forall m, int_of (SInt (c_szw c) false) (VF w z) m ->
   rmem (fl_struct_cast c
     (FCons n (FFixed (TFloat w) w) CNone (FCons id (t (LenField n)) k post))) bs =
   rmem (fl_struct_cast c
     (FCons n (FFixed (TFloat w) w) CNone (FCons id (t (LenComp (fun _ => m) [])) k post))) bs).
Proof. exact pair_read. Qed.
Print Assumptions C106_read.

(** Writing derives the number, whatever the struct holds for it: if a number of the format
    is the element count, that number and the elements go out; if none is, or if the count
    does not fit the bytes of the number taken as an integer, [validation_failure]. *)
Theorem C106_write : forall c w eb mb n id elt b v0 xs,
  is_fmt w eb mb -> (1 <= c_szw c <= 8)%nat -> n <> id ->
  ct_wf elt = true -> Forall (ct_ok elt) xs -> 2 * Z.of_nat (length xs) < pow256 (c_szw c) ->
  (forall z, 0 <= z -> 2 * z < pow256 w -> fdec w z = FFin (units (Z.of_nat (length xs))) ->
   ((w < c_szw c)%nat -> Z.of_nat (length xs) < pow256 w) ->
   wmem (fl_stream_cast c (counted w n id elt b) [v0; VSeq xs]) =
     (Ok tt, enc_fields (c_wire c) (counted w n id elt b) [VF w z; VSeq xs])) /\
  (~ (exact_in w (Z.of_nat (length xs)) /\ ((w < c_szw c)%nat -> Z.of_nat (length xs) < pow256 w)) ->
   wmem (fl_stream_cast c (counted w n id elt b) [v0; VSeq xs]) = (Err (ValidationFailure, n), [])).
Proof. exact pair_write. Qed.
Print Assumptions C106_write.

(** Up to 2^24 elements ([float]) or 2^53 ([double]) always go out. *)
Theorem C106_small : forall c w eb mb n id elt b v0 xs,
  is_fmt w eb mb -> (1 <= c_szw c <= 8)%nat -> n <> id ->
  ct_wf elt = true -> Forall (ct_ok elt) xs -> 2 * Z.of_nat (length xs) < pow256 (c_szw c) ->
  Z.of_nat (length xs) <= 2 ^ (mb + 1) ->
  exists out, wmem (fl_stream_cast c (counted w n id elt b) [v0; VSeq xs]) = (Ok tt, out).
Proof. exact small_write. Qed.
Print Assumptions C106_small.

(** What goes out reads back. *)
Theorem C106_round_trip : forall c w eb mb n id elt b v0 xs out rest,
  is_fmt w eb mb -> (1 <= c_szw c <= 8)%nat -> n <> id ->
  ct_wf elt = true -> Forall (ct_ok elt) xs -> 2 * Z.of_nat (length xs) < pow256 (c_szw c) ->
  within c b (Z.of_nat (csize elt)) (length xs) ->
  wmem (fl_stream_cast c (counted w n id elt b) [v0; VSeq xs]) = (Ok tt, out) ->
  exists z, fdec w z = FFin (units (Z.of_nat (length xs))) /\
    rmem (fl_struct_cast c (counted w n id elt b)) (out ++ rest) = (Ok [VF w z; VSeq xs], rest).
Proof. exact pair_round. Qed.
Print Assumptions C106_round_trip.

(** The same in any schema that begins with the number.  Where the containers' lengths
    differ, or no number of the format is the length, nothing goes out.
    [claims], [cond_claims]: the lengths of the containers, and of the optional ones and
    alternatives, that name [n] (WSpec.v). *)
Theorem C106_derived : forall c w eb mb n gs v0 vs m l,
  is_fmt w eb mb -> (1 <= c_szw c <= 8)%nat ->
  typed (computed_fields c (FCons n (FFixed (TFloat w) w) CNone gs)) = true ->
  has_fields (FCons n (FFixed (TFloat w) w) CNone gs) (v0 :: vs) ->
  claims c n gs vs = m :: l ->
  (~ Forall (eq m) l ->
   wmem (fl_stream_cast c (FCons n (FFixed (TFloat w) w) CNone gs) (v0 :: vs)) =
     (Err (FoundContradictingLength, n), [])) /\
  (Forall (eq m) l -> 0 <= m -> 2 * m < pow256 (c_szw c) ->
   ~ (exact_in w m /\ ((w < c_szw c)%nat -> m < pow256 w)) ->
   wmem (fl_stream_cast c (FCons n (FFixed (TFloat w) w) CNone gs) (v0 :: vs)) =
     (Err (ValidationFailure, n), [])).
Proof. exact derived_stop. Qed.
Print Assumptions C106_derived.

(** A number that only optional containers and alternatives name is converted and compared,
    and goes out as the struct holds it. *)
Theorem C106_verified : forall c w eb mb n gs z vs, is_fmt w eb mb ->
  wf (computed_fields c (FCons n (FFixed (TFloat w) w) CNone gs)) = true ->
  typed (computed_fields c (FCons n (FFixed (TFloat w) w) CNone gs)) = true ->
  has_fields (FCons n (FFixed (TFloat w) w) CNone gs) (VF w z :: vs) ->
  claims c n gs vs = [] ->
  ((exists id t p ids k, container t /\ In (id, FMaybe (t (LenField n)) p ids, k) (f_list gs)) ->
   (forall m, ~ int_of (SInt (c_szw c) false) (VF w z) m) ->
   wmem (fl_stream_cast c (FCons n (FFixed (TFloat w) w) CNone gs) (VF w z :: vs)) = (UB, [])) /\
  (forall m, int_of (SInt (c_szw c) false) (VF w z) m ->
   ~ Forall (eq m) (cond_claims (mk_env (FCons n (FFixed (TFloat w) w) CNone gs) (VF w z :: vs)) n gs vs) ->
   wmem (fl_stream_cast c (FCons n (FFixed (TFloat w) w) CNone gs) (VF w z :: vs)) =
     (Err (FoundContradictingLength, n), [])) /\
  (forall m, int_of (SInt (c_szw c) false) (VF w z) m ->
   Forall (eq m) (cond_claims (mk_env (FCons n (FFixed (TFloat w) w) CNone gs) (VF w z :: vs)) n gs vs) ->
   exists more, snd (wmem (fl_stream_cast c (FCons n (FFixed (TFloat w) w) CNone gs) (VF w z :: vs))) =
     enc_ct (c_wire c) (TFloat w) (VF w z) ++ more).
Proof. exact verified_write. Qed.
Print Assumptions C106_verified.

(** Two containers of one length; an optional one. *)
Definition twins : fields :=
  FCons "n" (FFixed (TFloat 4) 4) CNone
    (FCons "a" (FVar (TScalar (SInt 1 false)) (LenField "n") None) CNone
    (FCons "b" (FVar (TScalar (SInt 2 false)) (LenField "n") None) CNone FNil)).

Definition maybe_bag : fields :=
  FCons "n" (FFixed (TFloat 4) 4) CNone
    (FCons "data" (FMaybe (FVar (TScalar (SInt 1 false)) (LenField "n") None) (fun _ => true) []) CNone FNil).

Example C106_derived_case :
  typed (computed_fields le64 twins) = true /\
  has_fields twins [VF 4 0; VSeq [VZ 1]; VSeq [VZ 1; VZ 2]] /\
  claims le64 "n" twins [VF 4 0; VSeq [VZ 1]; VSeq [VZ 1; VZ 2]] = [1; 2] /\
  wmem (fl_stream_cast le64 twins [VF 4 0; VSeq [VZ 1]; VSeq [VZ 1; VZ 2]]) =
    (Err (FoundContradictingLength, "n"), []) /\
  wmem (fl_stream_cast le64 twins [VF 4 0; VSeq [VZ 1]; VSeq [VZ 2]]) =
    (Ok tt, [0; 0; 0x80; 0x3F; 1; 2; 0]).
Proof.
  split; [reflexivity|]. split; [|vm_compute; repeat split].
  cbn. split; [split; [reflexivity|split; [discriminate|reflexivity]]|]. repeat constructor; discriminate.
Qed.

Example C106_verified_case :
  wf (computed_fields le64 maybe_bag) = true /\ typed (computed_fields le64 maybe_bag) = true /\
  has_fields maybe_bag [VF 4 0x40000000; VSome (VSeq [VZ 1])] /\
  claims le64 "n" maybe_bag [VF 4 0x40000000; VSome (VSeq [VZ 1])] = [] /\
  wmem (fl_stream_cast le64 maybe_bag [VF 4 0x40000000; VSome (VSeq [VZ 1])]) =
    (Err (FoundContradictingLength, "n"), []) /\
  wmem (fl_stream_cast le64 maybe_bag [VF 4 0x3F800000; VSome (VSeq [VZ 1])]) =
    (Ok tt, [0; 0; 0x80; 0x3F; 1]).
Proof.
  split; [reflexivity|]. split; [reflexivity|]. split; [|vm_compute; repeat split].
  cbn. split; [split; [reflexivity|split; [discriminate|reflexivity]]|]. repeat constructor; discriminate.
Qed.

(** A [float] and that many bytes. *)
Definition bag : fields := counted 4 "n" "data" (TScalar (SInt 1 false)) None.

Example C106_case : is_fmt 4 8 23 /\ wf (computed_fields le64 bag) = true /\
  rmem (struct_cast le64 (FCons "n" (FFixed (TFloat 4) 4) CNone FNil)) [0; 0; 0x40; 0x40; 7; 8; 9; 1] =
    (Ok [VF 4 0x40400000], [7; 8; 9; 1]) /\
  rmem (fl_struct_cast le64 bag) [0; 0; 0x40; 0x40; 7; 8; 9; 1] =
    (Ok [VF 4 0x40400000; VSeq [VZ 7; VZ 8; VZ 9]], [1]) /\
  fdec 4 0x40400000 = FFin (units 3) /\
  wmem (fl_stream_cast le64 bag [VF 4 0; VSeq [VZ 7; VZ 8; VZ 9]]) =
    (Ok tt, [0; 0; 0x40; 0x40; 7; 8; 9]) /\
  rmem (fl_struct_cast le64 bag) [0; 0; 0x40; 0x40; 7] = (Err (BufferExhaustion, "data"), [7]) /\
  rmem (fl_struct_cast le64 bag) [0; 0; 0x80; 0x4F; 7] = (Err (ExcessiveLength, "data"), [7]).
Proof. split; [left; auto|]. vm_compute. repeat split. Qed.

(** A message with integer lengths. *)
Example C106_same_case :
  rmem (fl_struct_cast be64 packet) packet_be = rmem (struct_cast be64 packet) packet_be /\
  fst (rmem (struct_cast be64 packet) packet_be) = Ok packet_val.
Proof. vm_compute. repeat split. Qed.

(** Bytes from the wire are enough for undefined behaviour: -1, a NaN, an infinity, 2^64.
    (-0.5 is a length of 0.) *)
Theorem C106_undefined_refuted : exists fs,
  wf (computed_fields le64 fs) = true /\ typed (computed_fields le64 fs) = true /\
  rmem (fl_struct_cast le64 fs) [0; 0; 0x80; 0xBF] = (UB, []) /\
  rmem (fl_struct_cast le64 fs) [0; 0; 0xC0; 0x7F] = (UB, []) /\
  rmem (fl_struct_cast le64 fs) [0; 0; 0x80; 0x7F] = (UB, []) /\
  rmem (fl_struct_cast le64 fs) [0; 0; 0x80; 0x5F] = (UB, []) /\
  rmem (fl_struct_cast le64 fs) [0; 0; 0; 0xBF] = (Ok [VF 4 0xBF000000; VSeq []], []).
Proof. exists bag. vm_compute. repeat split. Qed.
Print Assumptions C106_undefined_refuted.

(** 2.5 is read as a length of 2, and written back as 2. *)
Theorem C106_fraction_refuted : exists bs vs out,
  rmem (fl_struct_cast le64 bag) bs = (Ok vs, []) /\
  wmem (fl_stream_cast le64 bag vs) = (Ok tt, out) /\ out <> bs.
Proof.
  exists [0; 0; 0x20; 0x40; 7; 8], [VF 4 0x40200000; VSeq [VZ 7; VZ 8]], [0; 0; 0; 0x40; 7; 8].
  vm_compute. repeat split. discriminate.
Qed.
Print Assumptions C106_fraction_refuted.

(** 2^24 + 1 elements cannot be written. *)
Theorem C106_large_refuted : exists xs, Z.of_nat (length xs) = 16777217 /\
  Forall (ct_ok (TScalar (SInt 1 false))) xs /\ forall v0,
  wmem (fl_stream_cast le64 bag [v0; VSeq xs]) = (Err (ValidationFailure, "n"), []).
Proof. exact too_many. Qed.
Print Assumptions C106_large_refuted.

(** A length of an optional container is converted when it is written: a struct that holds
    a NaN for it is enough. *)
Theorem C106_write_undefined_refuted : exists fs vs,
  wf (computed_fields le64 fs) = true /\ typed (computed_fields le64 fs) = true /\
  has_fields fs vs /\ wmem (fl_stream_cast le64 fs vs) = (UB, []).
Proof.
  exists (FCons "n" (FFixed (TFloat 4) 4) CNone
    (FCons "data" (FMaybe (FVar (TScalar (SInt 1 false)) (LenField "n") None) (fun _ => true) []) CNone FNil)),
    [VF 4 0x7FC00000; VSome (VSeq [VZ 1])].
  split; [reflexivity|]. split; [reflexivity|]. split; [|vm_compute; reflexivity].
  cbn. split; [split; [reflexivity|split; [discriminate|reflexivity]]|]. repeat constructor.
Qed.
Print Assumptions C106_write_undefined_refuted.
