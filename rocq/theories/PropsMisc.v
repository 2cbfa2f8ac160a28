(** * Narrow fields, claimed lengths, magic strings *)
From Verif Require Import PropDefs Typing Streams Examples.
From Verif Require Import Narrow.

(** ** C15: a scalar field of [n] bytes, wherever it stands, is read from its [n]
    bytes.  Two's complement [z] is what they denote; big endian, they are the
    high-order bytes of the type. *)
Theorem C15_read_narrow : forall c fs bs vs rest pre id s n k z,
  wf fs = true -> Forall byte_ok bs -> rmem (struct_cast c fs) bs = (Ok vs, rest) ->
  field_at fs vs pre id (FFixed (TScalar s) n) k (VZ z) ->
  exists part tail, bs = bytes_before c pre vs ++ part ++ tail /\ length part = n /\
    z mod 256 ^ Z.of_nat (ssize s) = number (c_wire c) part * scale (c_wire c) (ssize s) n.
Proof. exact narrow_read. Qed.
Print Assumptions C15_read_narrow.

Theorem C15_read_little : forall c fs bs vs rest pre id s n k z,
  wf fs = true -> Forall byte_ok bs -> c_wire c = Little ->
  unsigned s = true \/ (n < ssize s)%nat ->
  rmem (struct_cast c fs) bs = (Ok vs, rest) ->
  field_at fs vs pre id (FFixed (TScalar s) n) k (VZ z) ->
  exists part tail, bs = bytes_before c pre vs ++ part ++ tail /\ length part = n /\
    z = number Little part.
Proof. exact narrow_read_little. Qed.
Print Assumptions C15_read_little.

(** A slot that is not overwritten goes out in [n] bytes: the low-order ones, little
    endian, the high-order ones, big endian. *)
Theorem C15_write_narrow : forall c fs vs out pre id s n k z,
  wf fs = true -> typed fs = true -> has_fields fs vs ->
  field_at fs vs pre id (FFixed (TScalar s) n) k (VZ z) ->
  overwritten fs id (FFixed (TScalar s) n) k = false ->
  wmem (stream_cast c fs vs) = (Ok tt, out) ->
  exists part tail, out = bytes_before c pre (emitted c fs vs) ++ part ++ tail /\ length part = n /\
    number (c_wire c) part =
    match c_wire c with
    | Little => z mod 256 ^ Z.of_nat n
    | Big => z mod 256 ^ Z.of_nat (ssize s) / 256 ^ Z.of_nat (ssize s - n)
    end.
Proof. exact narrow_write. Qed.
Print Assumptions C15_write_narrow.

(** Written then read, exactly the lost bytes are missing: the value comes back iff
    [cut] leaves it alone. *)
Theorem C15_round_trip : forall c id s n z rest,
  (0 < n <= ssize s)%nat -> ct_wf (TScalar s) = true -> sc_in s z = true ->
  exists out, wmem (stream_cast c (FCons id (FFixed (TScalar s) n) CNone FNil) [VZ z]) = (Ok tt, out) /\
  rmem (struct_cast c (FCons id (FFixed (TScalar s) n) CNone FNil)) (out ++ rest) =
  (Ok [VZ (cut (c_wire c) s n z)], rest).
Proof. exact slot_trip. Qed.
Print Assumptions C15_round_trip.

(** Three bytes of a 32-bit field between two others. *)
Definition mid24 : fields :=
  FCons "a" (fixed u8) CNone (FCons "b" (FFixed (TScalar u32) 3) CNone (FCons "c" (fixed u8) CNone FNil)).

Example C15_case :
  wf mid24 = true /\ typed mid24 = true /\
  rmem (struct_cast le64 mid24) [9; 1; 2; 3; 8] = (Ok [VZ 9; VZ 0x030201; VZ 8], []) /\
  rmem (struct_cast be64 mid24) [9; 1; 2; 3; 8] = (Ok [VZ 9; VZ 0x01020300; VZ 8], []) /\
  wmem (stream_cast le64 mid24 [VZ 9; VZ 0x04030201; VZ 8]) = (Ok tt, [9; 1; 2; 3; 8]) /\
  field_at mid24 [VZ 9; VZ 0x030201; VZ 8] (f_take 1 mid24) "b" (FFixed (TScalar u32) 3) CNone (VZ 0x030201) /\
  overwritten mid24 "b" (FFixed (TScalar u32) 3) CNone = false /\
  cut Little u32 3 0x04030201 = 0x030201 /\ cut Big u32 3 0x04030201 = 0x04030200 /\
  cut Little i16 1 (-1) = 255 /\ cut Big i16 1 (-1) = -256.
Proof. repeat split; try reflexivity. at_pos 1%nat. Qed.

(** Big endian, the number in the bytes is not the value, and a value that fits the
    bytes does not survive. *)
Theorem C15_big_refuted : exists fs bs z out,
  wf fs = true /\ typed fs = true /\ has_fields fs [VZ z] /\ length bs = 1%nat /\
  rmem (struct_cast be64 fs) bs = (Ok [VZ (256 * number Big bs)], []) /\ number Big bs <> 0 /\
  0 <= z < 256 /\ wmem (stream_cast be64 fs [VZ z]) = (Ok tt, out) /\
  rmem (struct_cast be64 fs) out = (Ok [VZ 0], []) /\ z <> 0.
Proof.
  exists (slot16 1), [5], 5, [0]. repeat split; try reflexivity; try discriminate.
Qed.
Print Assumptions C15_big_refuted.

(** Little endian, a stored value that does not fit is truncated without an error. *)
Theorem C15_truncated_refuted : exists fs z out,
  wf fs = true /\ typed fs = true /\ has_fields fs [VZ z] /\
  wmem (stream_cast le64 fs [VZ z]) = (Ok tt, out) /\ number Little out <> z.
Proof. exists (slot16 1), 300, [44]. repeat split; try reflexivity. discriminate. Qed.
Print Assumptions C15_truncated_refuted.

(** Nor is a narrow signed field sign-extended: -1 fits a byte and reads back as 255. *)
Theorem C15_sign_refuted : exists fs z out,
  wf fs = true /\ typed fs = true /\ has_fields fs [VZ z] /\ -128 <= z < 128 /\
  wmem (stream_cast le64 fs [VZ z]) = (Ok tt, out) /\ length out = 1%nat /\
  rmem (struct_cast le64 fs) out = (Ok [VZ 255], []) /\ z <> 255.
Proof.
  exists (FCons "a" (FFixed (TScalar i16) 1) CNone FNil), (-1), [255].
  repeat split; try reflexivity; try discriminate.
Qed.
Print Assumptions C15_sign_refuted.

(** ** C40: a container, also inside an optional or a variant, has as many elements as
    its length field says, as a [size_t]. *)
Theorem C40_count : forall c fs bs vs rest pre id t k v lid b t' xs z,
  wf fs = true -> Forall byte_ok bs -> rmem (struct_cast c fs) bs = (Ok vs, rest) ->
  field_at fs vs pre id t k v -> inside t v t' (VSeq xs) -> prefixed_by lid b t' ->
  lookup (mk_env fs vs) lid = Some (VZ z) ->
  Z.of_nat (length xs) = z mod 256 ^ Z.of_nat (c_szw c) /\
  Z.of_nat (length xs) <= ceiling_of c b.
Proof. exact count_read. Qed.
Print Assumptions C40_count.

(** Hence exactly as many, when the length field is no wider than [size_t]; if it is
    signed, when the ceiling is below half of [size_t]'s range. *)
Theorem C40_count_exact : forall c fs bs vs rest pre id t k v lid b t' xs pre' s n k' z,
  wf fs = true -> Forall byte_ok bs -> rmem (struct_cast c fs) bs = (Ok vs, rest) ->
  field_at fs vs pre id t k v -> inside t v t' (VSeq xs) -> prefixed_by lid b t' ->
  field_at fs vs pre' lid (FFixed (TScalar s) n) k' (VZ z) ->
  (ssize s <= c_szw c)%nat -> (0 < c_szw c)%nat ->
  unsigned s = true \/ 2 * ceiling_of c b < 256 ^ Z.of_nat (c_szw c) ->
  Z.of_nat (length xs) = z.
Proof. exact count_exact. Qed.
Print Assumptions C40_count_exact.

Example C40_case : exists pre t k v pre' k',
  rmem (struct_cast be64 frame) (fst (packed_frame)) = (Ok (snd packed_frame), []) /\
  field_at frame (snd packed_frame) pre "zs" t k v /\
  inside t v (FVar (TScalar u8) (LenField "m") None) (VSeq [VZ 5; VZ 6; VZ 7]) /\
  prefixed_by "m" None (FVar (TScalar u8) (LenField "m") None) /\
  field_at frame (snd packed_frame) pre' "m" (fixed u8) k' (VZ 3) /\
  (ssize u8 <= c_szw be64)%nat /\ 2 * ceiling_of be64 None < 256 ^ Z.of_nat (c_szw be64).
Proof.
  exists (f_take 7 frame). do 3 eexists. exists (f_take 4 frame). eexists.
  split; [vm_compute; reflexivity|]. split; [at_pos 7%nat|].
  split; [apply in_maybe, in_self|]. split; [split; reflexivity|].
  split; [at_pos 4%nat|]. vm_compute. split; [repeat constructor|reflexivity].
Qed.

(** With a 32-bit [size_t] and a 64-bit length field, the length 2^32 + 3 is taken for
    3 without an error. *)
Theorem C40_wrap_refuted : exists fs bs vs z xs,
  let c := mkCfg Little Little false 4 16777216 in
  wf fs = true /\ typed fs = true /\ Forall byte_ok bs /\
  rmem (struct_cast c fs) bs = (Ok vs, []) /\
  field_at fs vs FNil "n" (fixed u64) CNone (VZ z) /\ vs = [VZ z; VSeq xs] /\
  z = 2 ^ 32 + 3 /\ length xs = 3%nat.
Proof.
  exists (FCons "n" (fixed u64) CNone (FCons "xs" (FVar (TScalar u8) (LenField "n") None) CNone FNil)),
    [3; 0; 0; 0; 1; 0; 0; 0; 7; 8; 9], [VZ (2 ^ 32 + 3); VSeq [VZ 7; VZ 8; VZ 9]], (2 ^ 32 + 3),
    [VZ 7; VZ 8; VZ 9].
  split; [reflexivity|]. split; [reflexivity|].
  split; [repeat constructor; vm_compute; discriminate|]. split; [vm_compute; reflexivity|].
  split; [at_pos 0%nat|]. auto.
Qed.
Print Assumptions C40_wrap_refuted.

(** ** C41: a magic string accepts exactly the string and its terminator. *)
Theorem C41_magic_string : forall c id cs bs,
  ~ In 0 cs -> Forall byte_ok cs -> Forall byte_ok bs ->
  (exists vs rest, rmem (struct_cast c (magic_string id cs FNil)) bs = (Ok vs, rest)) <->
  (exists rest, bs = cs ++ 0 :: rest).
Proof. exact magic_accepts. Qed.
Print Assumptions C41_magic_string.

(** What happens for every [length cs + 1] bytes [a]: accepted, rejected, or, without
    a NUL among them, the comparison reads past the value. *)
Theorem C41_outcome : forall c id cs a rest,
  ~ In 0 cs -> Forall byte_ok a -> length a = S (length cs) ->
  (a = cs ++ [0] ->
   rmem (struct_cast c (magic_string id cs FNil)) (a ++ rest) = (Ok [VSeq (map VZ a)], rest)) /\
  (In 0 a -> a <> cs ++ [0] ->
   rmem (struct_cast c (magic_string id cs FNil)) (a ++ rest) = (Err (ValidationFailure, id), rest)) /\
  (~ In 0 a -> rmem (struct_cast c (magic_string id cs FNil)) (a ++ rest) = (UB, rest)).
Proof. exact magic_outcome. Qed.
Print Assumptions C41_outcome.

(** A magic string anywhere in a schema. *)
Theorem C41_in_schema : forall c fs bs vs rest pre id cs v,
  wf fs = true -> Forall byte_ok bs -> ~ In 0 cs ->
  rmem (struct_cast c fs) bs = (Ok vs, rest) ->
  field_at fs vs pre id (FFixed (TFixStr (length cs)) (S (length cs))) (CStr false (cs ++ [0])) v ->
  exists tail, bs = bytes_before c pre vs ++ cs ++ 0 :: tail.
Proof. exact magic_at. Qed.
Print Assumptions C41_in_schema.

(** "PK" *)
Definition pk : list Z := [80; 75].

Example C41_case : ~ In 0 pk /\ Forall byte_ok pk /\
  rmem (struct_cast le64 (magic_string "m" pk FNil)) [80; 75; 0; 1] = (Ok [VSeq [VZ 80; VZ 75; VZ 0]], [1]) /\
  rmem (struct_cast le64 (magic_string "m" pk FNil)) [80; 0; 0; 1] = (Err (ValidationFailure, "m"), [1]) /\
  rmem (struct_cast le64 (FCons "n" (fixed u8) CNone (magic_string "m" pk FNil))) [5; 80; 75; 0; 1] =
    (Ok [VZ 5; VSeq [VZ 80; VZ 75; VZ 0]], [1]).
Proof.
  split; [simpl; intuition discriminate|]. split; [repeat constructor; vm_compute; discriminate|].
  repeat split; reflexivity.
Qed.

(** Bytes without a terminator are not rejected: undefined behaviour. *)
Theorem C41_unterminated_refuted : exists cs bs,
  ~ In 0 cs /\ Forall byte_ok bs /\ length bs = S (length cs) /\
  fst (rmem (struct_cast le64 (magic_string "m" cs FNil)) bs) = UB.
Proof.
  exists pk, [80; 75; 33]. split; [simpl; intuition discriminate|].
  split; [repeat constructor; vm_compute; discriminate|]. split; reflexivity.
Qed.
Print Assumptions C41_unterminated_refuted.
