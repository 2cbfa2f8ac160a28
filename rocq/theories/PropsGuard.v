(** * Conditions that cannot be dropped

    C04, C12, C16, C17 and C19 hold under conditions.  Here the conditions are shown to be
    exact: without them the claim fails, not only in the refuted cases but always. *)
From Verif Require Import Read Write WSpec PropDefs Typing Examples WExact.
From Verif Require Import WriteFinal GuardFacts.
Local Open Scope Z_scope.

(** ** C04: of what was read, the same bytes are written exactly if the writer accepts it
    ([writable], C50) and what it puts in place of the slots it overwrites has the same
    encoding. *)
Theorem C04_exact : forall c fs bs vs rest,
  wf fs = true -> typed fs = true -> Forall byte_ok bs ->
  rmem (struct_cast c fs) bs = (Ok vs, rest) ->
  exists used, bs = used ++ rest /\
    (wmem (stream_cast c fs vs) = (Ok tt, used) <->
     writable c fs vs /\ enc_fields (c_wire c) fs (emitted c fs vs) = enc_fields (c_wire c) fs vs).
Proof. exact rewrite_exact. Qed.
Print Assumptions C04_exact.

(** A 16-bit field constrained by [eq] with an 8-bit literal: 0x107 is read, 7 is written. *)
Definition pin8 : fields := FCons "m" (fixed u16) (CCmp OEq u8 7) FNil.

Example C04_exact_case : wf pin8 = true /\ typed pin8 = true /\
  rmem (struct_cast le64 pin8) [7; 1; 9] = (Ok [VZ 0x107], [9]) /\
  enc_fields Little pin8 (emitted le64 pin8 [VZ 0x107]) = [7; 0] /\
  enc_fields Little pin8 [VZ 0x107] = [7; 1] /\
  rmem (struct_cast le64 pin8) [7; 0] = (Ok [VZ 7], []) /\
  wmem (stream_cast le64 pin8 [VZ 7]) = (Ok tt, [7; 0]).
Proof. vm_compute. repeat split; reflexivity. Qed.

(** ** C12: a comparison means the mathematical one, for every literal and input, exactly
    if the type of the literal has every value of the field's type. *)
Theorem C12_exact : forall c id ft s, ct_wf (TScalar ft) = true ->
  ((forall o lit bs z rest, Forall byte_ok bs -> sc_in s lit = true ->
      rmem (struct_cast c (FCons id (FFixed (TScalar ft) (ssize ft)) CNone FNil)) bs = (Ok [VZ z], rest) ->
      (fst (rmem (struct_cast c (FCons id (FFixed (TScalar ft) (ssize ft)) (CCmp o s lit) FNil)) bs) =
         Ok [VZ z] <->
       cmp_holds o z lit)) <->
   (forall z, sc_in ft z = true -> sc_in s z = true)).
Proof. exact compare_guard. Qed.
Print Assumptions C12_exact.

Example C12_exact_case : ct_wf (TScalar u32) = true /\
  sc_in u32 0xFFFFFFFF = true /\ sc_in i32 0xFFFFFFFF = false /\
  fst (rmem (struct_cast be64 (FCons "a" (fixed u32) (CCmp OEq i32 (-1)) FNil)) [255; 255; 255; 255]) =
    Ok [VZ 0xFFFFFFFF].
Proof. vm_compute. repeat split; reflexivity. Qed.

(** ** C16: the bytes of a length are its number exactly if the wire is little endian, the
    field is as wide as its type, or the container is empty. *)
Theorem C16_exact : forall c fs vs pre id s n k v out pre' id' t' k' v' m,
  wf fs = true -> typed fs = true -> has_fields fs vs ->
  field_at fs vs pre id (FFixed (TScalar s) n) k v ->
  field_at fs vs pre' id' t' k' v' -> sized_by id t' v' = Some m -> (1 < c_szw c)%nat ->
  wmem (stream_cast c fs vs) = (Ok tt, out) ->
  exists bs rest, out = bytes_before c pre (emitted c fs vs) ++ bs ++ rest /\ length bs = n /\
    (number (c_wire c) bs = Z.of_nat m <-> c_wire c = Little \/ n = ssize s \/ m = 0%nat).
Proof. exact length_exact. Qed.
Print Assumptions C16_exact.

Definition len2of4 : fields :=
  FCons "n" (FFixed (TScalar u32) 2) CNone (FCons "xs" (FVar (TScalar u8) (LenField "n") None) CNone FNil).

Example C16_exact_case : wf len2of4 = true /\ typed len2of4 = true /\
  field_at len2of4 [VZ 0; VSeq [VZ 7; VZ 8]] FNil "n" (FFixed (TScalar u32) 2) CNone (VZ 0) /\
  sized_by "n" (FVar (TScalar u8) (LenField "n") None) (VSeq [VZ 7; VZ 8]) = Some 2%nat /\
  wmem (stream_cast be64 len2of4 [VZ 0; VSeq [VZ 7; VZ 8]]) = (Ok tt, [0; 0; 7; 8]) /\
  wmem (stream_cast le64 len2of4 [VZ 0; VSeq [VZ 7; VZ 8]]) = (Ok tt, [2; 0; 7; 8]) /\
  wmem (stream_cast be64 len2of4 [VZ 0; VSeq []]) = (Ok tt, [0; 0]).
Proof.
  split; [reflexivity|]. split; [reflexivity|]. split; [at_pos 0%nat|]. vm_compute. repeat split; reflexivity.
Qed.

(** ** C17: a negative match value cannot be written into a discriminant declared narrower
    than [size_t], whatever its type: it is converted to [size_t] first and does not fit. *)
Theorem C17_negative : forall c fs vs pre id s n k v pre' id' s' cases al k' j v' sj mv,
  wf fs = true -> typed fs = true -> has_fields fs vs ->
  field_at fs vs pre id (FFixed (TScalar s) n) k v ->
  field_at fs vs pre' id' (FUnion (GField id s' cases) al) k' (VAlt j v') ->
  nth_error cases j = Some (sj, mv) -> - 256 ^ Z.of_nat (c_szw c) <= 2 * mv < 0 -> (n < c_szw c)%nat ->
  forall out, wmem (stream_cast c fs vs) <> (Ok tt, out).
Proof. exact negative_case. Qed.
Print Assumptions C17_negative.

(** As wide as [size_t], its two's complement goes out. *)
Theorem C17_wide : forall c fs vs pre id s n k v out pre' id' s' cases al k' j v' sj mv,
  wf fs = true -> typed fs = true -> has_fields fs vs ->
  field_at fs vs pre id (FFixed (TScalar s) n) k v ->
  field_at fs vs pre' id' (FUnion (GField id s' cases) al) k' (VAlt j v') ->
  nth_error cases j = Some (sj, mv) ->
  (c_wire c = Little \/ n = ssize s) -> (1 < c_szw c)%nat ->
  wmem (stream_cast c fs vs) = (Ok tt, out) ->
  exists bs rest, out = bytes_before c pre (emitted c fs vs) ++ bs ++ rest /\ length bs = n /\
    number (c_wire c) bs = mv mod 256 ^ Z.of_nat (c_szw c).
Proof. exact disc_written. Qed.
Print Assumptions C17_wide.

Definition minus (s : sty) : fields :=
  FCons "d" (fixed s) CNone
    (FCons "u" (FUnion (GField "d" s [(i32, -1); (i32, 4)])
       (ACons (fixed u8) CNone (ACons (fixed u16) CNone ANil))) CNone FNil).

Example C17_negative_case : wf (minus i16) = true /\ typed (minus i16) = true /\
  wf (minus (SInt 8 true)) = true /\ typed (minus (SInt 8 true)) = true /\
  field_at (minus i16) [VZ 0; VAlt 0 (VZ 5)] FNil "d" (fixed i16) CNone (VZ 0) /\
  wmem (stream_cast le64 (minus i16) [VZ 0; VAlt 0 (VZ 5)]) = (Err (ValidationFailure, "d"), []) /\
  rmem (struct_cast le64 (minus i16)) [255; 255; 5] = (Ok [VZ (-1); VAlt 0 (VZ 5)], []) /\
  wmem (stream_cast le64 (minus (SInt 8 true)) [VZ 0; VAlt 0 (VZ 5)]) = (Ok tt, repeat 255 8 ++ [5]).
Proof.
  split; [reflexivity|]. split; [reflexivity|]. split; [reflexivity|]. split; [reflexivity|].
  split; [at_pos 0%nat|]. vm_compute. repeat split; reflexivity.
Qed.

(** ** C19: a pinned integer passes its own constraint exactly if the field's type has the
    literal, or the literal's type is no wider than the field's, or the literal is the
    unsigned notation of a negative value of the field. *)
Theorem C19_exact : forall w sg w' sg' lit, (0 < w)%nat -> (0 < w')%nat -> sc_in (SInt w' sg') lit = true ->
  (holds (CCmp OEq (SInt w' sg') lit) (VZ (conv (SInt w sg) lit)) <->
   sc_in (SInt w sg) lit = true \/ (w' <= w)%nat \/ sc_in (SInt w sg) (lit - 256 ^ Z.of_nat w') = true).
Proof. exact pinned_exact. Qed.
Print Assumptions C19_exact.

Example C19_exact_case :
  let ok w sg w' sg' lit := (sc_in (SInt w sg) lit, sc_in (SInt w sg) (lit - 256 ^ Z.of_nat w')) in
  pinned (TScalar i16) (CCmp OEq u32 0xFFFFFFFF) = Some (VZ (-1)) /\ ok 2%nat true 4%nat false 0xFFFFFFFF = (false, true) /\
  pinned (TScalar u8) (CCmp OEq i32 (-1)) = Some (VZ 255) /\ ok 1%nat false 4%nat true (-1) = (false, false) /\
  pinned (TScalar u32) (CCmp OEq i32 (-1)) = Some (VZ 0xFFFFFFFF) /\ ok 4%nat false 4%nat true (-1) = (false, false).
Proof. vm_compute. repeat split; reflexivity. Qed.
