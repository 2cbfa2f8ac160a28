(** * Floating-point fields

    [fdec w z]: the number with bit pattern [z] in the format of [w] bytes
    (Floats.v; [FFin n] is n / 2^1074).  [fless], [fequal]: less and equal numbers
    (Spec.v).  [is_fmt], [same_bits_but_zero]: FloatSpec.v.  Everything proved about
    casts (C01 and on) holds of schemas with floating-point fields, whose values are
    bit patterns; what follows is about the numbers they stand for. *)
From Verif Require Import Read Write WSpec FloatSpec PropDefs Typing Examples.
From Verif Require Import FloatFacts.
Local Open Scope list_scope.

(** ** C74: sign [s], exponent [e] and fraction [m] mean
    (-1)^s * 2^(e - bias) * 1.m, with subnormal numbers, infinities and NaNs. *)
Theorem C74_meaning : forall w eb mb s e m, is_fmt w eb mb -> s = 0 \/ s = 1 ->
  0 <= e < 2 ^ eb -> 0 <= m < 2 ^ mb ->
  let x := fdec w (s * 2 ^ (mb + eb) + e * 2 ^ mb + m) in
  (x = FNaN <-> e = 2 ^ eb - 1 /\ m <> 0) /\
  (e = 2 ^ eb - 1 -> m = 0 -> x = FInf (s =? 1)) /\
  (e < 2 ^ eb - 1 -> exists n, x = FFin n /\
     n * 2 ^ (2 ^ (eb - 1) - 1 + mb) =
     (1 - 2 * s) * ((if e =? 0 then 0 else 2 ^ mb) + m) * 2 ^ Z.max e 1 * 2 ^ 1074).
Proof. exact float_meaning. Qed.
Print Assumptions C74_meaning.

(** Every pattern has such parts. *)
Theorem C74_parts : forall w eb mb z, is_fmt w eb mb -> 0 <= z < pow256 w ->
  exists s e m, (s = 0 \/ s = 1) /\ 0 <= e < 2 ^ eb /\ 0 <= m < 2 ^ mb /\
    z = s * 2 ^ (mb + eb) + e * 2 ^ mb + m.
Proof. exact pattern. Qed.
Print Assumptions C74_parts.

(** Numbers other than NaN are in order; NaN compares with nothing. *)
Theorem C74_trichotomy : forall x y, x <> FNaN -> y <> FNaN ->
  (fless x y /\ ~ fequal x y /\ ~ fless y x) \/
  (fequal x y /\ ~ fless x y /\ ~ fless y x) \/
  (fless y x /\ ~ fequal x y /\ ~ fless x y).
Proof. exact float_trichotomy. Qed.
Print Assumptions C74_trichotomy.

Theorem C74_transitive : forall x y z, fless x y -> fless y z -> fless x z.
Proof. exact fless_trans. Qed.
Print Assumptions C74_transitive.

Theorem C74_nan_incomparable : forall x,
  ~ fless FNaN x /\ ~ fless x FNaN /\ ~ fequal FNaN x /\ ~ fequal x FNaN.
Proof. exact nan_incomparable. Qed.
Print Assumptions C74_nan_incomparable.

(** Different patterns of equal numbers: the two zeros, and nothing else. *)
Theorem C74_equal_bits : forall w t a b, ffmt w = Some t -> 0 <= a < pow256 w -> 0 <= b < pow256 w ->
  (fequal (fdec w a) (fdec w b) <->
   (a = b /\ fdec w a <> FNaN) \/
   (a = 0 /\ 2 * b = pow256 w) \/ (b = 0 /\ 2 * a = pow256 w)).
Proof. exact float_equal_bits. Qed.
Print Assumptions C74_equal_bits.

(** Patterns without the sign bit compare as the numbers do. *)
Theorem C74_order_bits : forall w t a b, ffmt w = Some t -> 0 <= a -> a < b -> 2 * b < pow256 w ->
  fdec w b <> FNaN -> fless (fdec w a) (fdec w b).
Proof. exact float_order_bits. Qed.
Print Assumptions C74_order_bits.

Example C74_case :
  is_fmt 4 8 23 /\ is_fmt 8 11 52 /\
  fdec 4 0x3FC00000 = FFin (3 * 2 ^ 1073) /\              (* 1.5f *)
  fdec 8 0xBFE0000000000000 = FFin (- 2 ^ 1073) /\        (* -0.5 *)
  fdec 8 1 = FFin 1 /\ fdec 4 1 = FFin (2 ^ 925) /\       (* denorm_min *)
  fdec 4 0x7F800000 = FInf false /\ fdec 8 0xFFF0000000000000 = FInf true /\
  fdec 4 0x7FC00000 = FNaN /\ fdec 4 0x80000000 = fdec 4 0.
Proof. unfold is_fmt. repeat split; first [left; repeat split; reflexivity | right; repeat split; reflexivity | vm_compute; reflexivity]. Qed.

(** ** C75: a constraint on a floating-point field admits no NaN. *)
Theorem C75_no_nan : forall c fs bs vs rest pre id n u k v, wf fs = true -> Forall byte_ok bs ->
  rmem (struct_cast c fs) bs = (Ok vs, rest) ->
  field_at fs vs pre id (FFixed (TFloat u) n) k v ->
  typed fs = true -> (exists o w lit, k = CFCmp o w lit) \/ (exists w lits, k = CFAny w lits) ->
  exists z, v = VF u z /\ fdec u z <> FNaN.
Proof. exact read_no_nan. Qed.
Print Assumptions C75_no_nan.

(** An array of numbers read under [eq] is the literal, but for the signs of zeros. *)
Theorem C75_pinned : forall c fs bs vs rest pre id n t lit v, wf fs = true -> typed fs = true ->
  Forall byte_ok bs -> rmem (struct_cast c fs) bs = (Ok vs, rest) ->
  field_at fs vs pre id (FFixed (TArr n t) (n * csize t)) (CArr false lit) v ->
  same_bits_but_zero v lit.
Proof. exact read_pinned_floats. Qed.
Print Assumptions C75_pinned.

Definition sample (k : constr) : fields := FCons "t" (FFixed (TFloat 4) 4) k FNil.
Definition origin (lit : val) : fields :=
  FCons "o" (FFixed (TArr 2 (TFloat 4)) 8) (CArr false lit) FNil.

Example C75_case :
  wf (sample (CFCmp OLt 8 0x4000000000000000)) = true /\      (* lt{2.0} *)
  typed (sample (CFCmp OLt 8 0x4000000000000000)) = true /\
  rmem (struct_cast le64 (sample (CFCmp OLt 8 0x4000000000000000))) [0; 0; 0xC0; 0x3F] =
    (Ok [VF 4 0x3FC00000], []) /\
  rmem (struct_cast le64 (sample (CFCmp OLt 8 0x4000000000000000))) [0; 0; 0; 0x40] =
    (Err (ValidationFailure, "t"), []) /\
  rmem (struct_cast le64 (sample (CFCmp OLt 8 0x4000000000000000))) [0; 0; 0xC0; 0x7F] =
    (Err (ValidationFailure, "t"), []) /\
  rmem (struct_cast le64 (sample (CFAny 4 [0; 0x3FC00000]))) [0; 0; 0; 0x80] =
    (Ok [VF 4 0x80000000], []) /\
  wmem (stream_cast le64 (sample CNone) [VF 4 0x7FC00001]) = (Ok tt, [1; 0; 0xC0; 0x7F]) /\
  rmem (struct_cast le64 (sample CNone)) [1; 0; 0xC0; 0x7F] = (Ok [VF 4 0x7FC00001], []).
Proof. vm_compute. repeat split. Qed.

(** [eq] on an array of [float]s compares numbers, and the writer puts the literal: a
    message with -0.0 where the schema has 0.0 is accepted and comes back different. *)
Theorem C75_signed_zero_refuted : exists fs bs vs out, wf fs = true /\ typed fs = true /\
  rmem (struct_cast le64 fs) bs = (Ok vs, []) /\
  wmem (stream_cast le64 fs vs) = (Ok tt, out) /\ out <> bs.
Proof.
  exists (origin (VSeq [VF 4 0; VF 4 0])), [0; 0; 0; 0x80; 0; 0; 0; 0],
    [VSeq [VF 4 0x80000000; VF 4 0]], [0; 0; 0; 0; 0; 0; 0; 0].
  vm_compute. repeat split. discriminate.
Qed.
Print Assumptions C75_signed_zero_refuted.

(** A literal with a NaN is written, and no message is ever accepted. *)
Theorem C75_nan_literal_refuted : exists fs vs out, wf fs = true /\ typed fs = true /\
  wmem (stream_cast le64 fs vs) = (Ok tt, out) /\
  forall bs vs' rest, Forall byte_ok bs -> rmem (struct_cast le64 fs) bs <> (Ok vs', rest).
Proof.
  exists (origin (VSeq [VF 4 0x7FC00000; VF 4 0])), [VSeq [VF 4 0; VF 4 0]],
    [0; 0; 0xC0; 0x7F; 0; 0; 0; 0].
  split; [vm_compute; reflexivity|]. split; [vm_compute; reflexivity|].
  split; [vm_compute; reflexivity|]. intros bs vs' rest Hb H.
  exact (nan_literal_unreadable le64 "o" 2 8 FNil (VSeq [VF 4 0x7FC00000; VF 4 0]) bs vs' rest
           eq_refl Hb eq_refl H).
Qed.
Print Assumptions C75_nan_literal_refuted.
