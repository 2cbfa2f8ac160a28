(** * Properties of stream_cast

    [wmem p] is what a stream that never refuses receives; [wrun S p s] runs the
    write against any output stream.  [emitted c fs vs] is the struct as it goes
    out: [vs] with derived and pinned slots replaced.  [bytes_before c pre vs]:
    the encodings of the fields [pre] that come first.  (WSpec.v, PropDefs.v) *)
From Verif Require Import PropDefs Typing Streams Examples.
From Verif Require Import WriteMain WriteErr WriteRel WriteMore WriteFinal.

(** ** C07 (write): [failed_at] names the field being written; the fields before it
    reached the stream in full, of the field itself a prefix, of later ones nothing. *)
Theorem C07_write_failed_at : forall c S fs vs s r id s' ch,
  wf fs = true -> typed fs = true -> has_fields fs vs ->
  wrun S (stream_cast c fs vs) s = (Err (r, id), s', ch) ->
  exists pre t k v ch1 ch2 tail, field_at fs vs pre id t k v /\
    ch = ch1 ++ ch2 /\ (forall b, ~ In (b, false) ch1) /\
    concat (map fst ch1) = bytes_before c pre (emitted c fs vs) /\
    enc_ty (c_wire c) t (nth (f_len pre) (emitted c fs vs) VNone) = concat (map fst ch2) ++ tail /\
    (atomic t = true -> (forall b, ~ In (b, false) ch2) -> concat (map fst ch2) = []).
Proof. exact write_failed_at. Qed.
Print Assumptions C07_write_failed_at.

(** Here the nested record's second field violates its constraint. *)
Example C07_write_case :
  let bad := frame_of 1 3 [1; 2] [3; 4] (some [5; 6; 7]) (VAlt 1 (pt 2 3)) (VAlt 0 (VZ 8)) [9; 9] (pt 1 (-6)) in
  has_fields frame bad /\
  wmem (stream_cast le64 frame bad) = (Err (ValidationFailure, "r"), firstn 23 frame_le).
Proof. split; [has_it|vm_compute; reflexivity]. Qed.

(** ** C08 (write): vocabulary of write errors. *)
Theorem C08_write_vocabulary : forall c S fs vs s r id s' ch,
  wrun S (stream_cast c fs vs) s = (Err (r, id), s', ch) ->
  In id (f_ids fs) /\ r <> ExcessiveLength /\
  (r = BufferExhaustion <-> exists bs, In (bs, false) ch).
Proof. exact write_vocabulary. Qed.
Print Assumptions C08_write_vocabulary.

Example C08_write_case :
  wrun budget_stream (stream_cast le64 frame frame_val) 7%nat =
  (Err (BufferExhaustion, "xs"), 1%nat,
   [([3], true); ([2; 0], true); ([1], true); ([7], true); ([3], true); ([1; 0; 2; 0], false)]).
Proof. vm_compute. reflexivity. Qed.

(** ** C13, C28 (write): neither the host's byte order nor the constexpr path is
    observable. *)
Theorem C13_C28_write_same : forall c c', same_build c c' -> forall fs vs,
  wf fs = true -> typed fs = true -> has_fields fs vs ->
  wmem (stream_cast c fs vs) = wmem (stream_cast c' fs vs).
Proof. exact stream_cast_same. Qed.
Print Assumptions C13_C28_write_same.

Example C13_C28_write_case :
  same_build be64 (mkCfg Big Big true 8 16777216) /\ has_fields frame frame_val /\
  wmem (stream_cast (mkCfg Big Big true 8 16777216) frame frame_val) =
  wmem (stream_cast be64 frame frame_val) /\
  wmem (stream_cast be64 frame frame_val) <> wmem (stream_cast le64 frame frame_val).
Proof. split; [repeat split|]. split; [has_it|]. vm_compute. split; [reflexivity|discriminate]. Qed.

(** ** C14 (write): the byte of weight 256^i of the j-th scalar of a field of
    scalars. *)
Theorem C14_write_layout : forall c fs vs pre id t k v out s l,
  wf fs = true -> typed fs = true -> has_fields fs vs -> field_at fs vs pre id t k v ->
  wmem (stream_cast c fs vs) = (Ok tt, out) ->
  scalars_of t (nth (f_len pre) (emitted c fs vs) VNone) = Some (s, l) ->
  exists bs rest, out = bytes_before c pre (emitted c fs vs) ++ bs ++ rest /\
    length bs = (length l * ssize s)%nat /\
    forall j i, (j < length l)%nat -> (i < ssize s)%nat ->
      nth (j * ssize s + byte_pos (c_wire c) (ssize s) i) bs 0 =
      (nth j l 0 / 256 ^ Z.of_nat i) mod 256.
Proof. exact write_scalar_bytes. Qed.
Print Assumptions C14_write_layout.

Example C14_write_case :
  field_at frame frame_val (f_take 5 frame) "xs" (FVar (TScalar u16) (LenField "n") None) CNone
    (VSeq [VZ 1; VZ 2]) /\
  scalars_of (FVar (TScalar u16) (LenField "n") None) (nth 5 (emitted le64 frame frame_val) VNone) =
    Some (u16, [1; 2]) /\
  bytes_before le64 (f_take 5 frame) (emitted le64 frame frame_val) = firstn 6 frame_le.
Proof. split; [at_pos 5%nat|]. vm_compute. auto. Qed.

(** ** C16: a length field on the wire is the container's element count.  ([m]: the
    count of a container [id'] sized by [id].)  The declared width must be the
    type's, or the wire little endian. *)
Theorem C16_C27_length_on_wire : forall c fs vs pre id s n k v out pre' id' t' k' v' m,
  wf fs = true -> typed fs = true -> has_fields fs vs ->
  field_at fs vs pre id (FFixed (TScalar s) n) k v ->
  field_at fs vs pre' id' t' k' v' -> sized_by id t' v' = Some m ->
  (c_wire c = Little \/ n = ssize s) -> (1 < c_szw c)%nat ->
  wmem (stream_cast c fs vs) = (Ok tt, out) ->
  exists bs rest, out = bytes_before c pre (emitted c fs vs) ++ bs ++ rest /\ length bs = n /\
    number (c_wire c) bs = Z.of_nat m.
Proof. exact length_written. Qed.
Print Assumptions C16_C27_length_on_wire.

Example C16_case :
  field_at frame frame_val (f_take 1 frame) "n" (fixed u16) CNone (VZ 99) /\
  field_at frame frame_val (f_take 6 frame) "ys" (FVar (TScalar u8) (LenField "n") None) CNone
    (VSeq [VZ 3; VZ 4]) /\
  sized_by "n" (FVar (TScalar u8) (LenField "n") None) (VSeq [VZ 3; VZ 4]) = Some 2%nat /\
  number Little [2; 0] = 2.
Proof. split; [at_pos 1%nat|]. split; [at_pos 6%nat|]. vm_compute. auto. Qed.

(** Declared narrower than its type in big endian, the high bytes go out. *)
Theorem C16_big_endian_narrow_refuted : exists fs vs out,
  wf fs = true /\ typed fs = true /\ has_fields fs vs /\
  wmem (stream_cast be64 fs vs) = (Ok tt, out) /\
  field_at fs vs FNil "n" (FFixed (TScalar u32) 2) CNone (VZ 0) /\
  (exists rest, nth 1 vs VNone = VSeq [VZ 7; VZ 8; VZ 9] /\ out = [0; 0] ++ rest).
Proof.
  exists narrow_len, [VZ 0; VSeq [VZ 7; VZ 8; VZ 9]], [0; 0; 7; 8; 9].
  split; [reflexivity|]. split; [reflexivity|]. split; [has_it|]. split; [vm_compute; reflexivity|].
  split; [at_pos 0%nat|]. exists [7; 8; 9]. auto.
Qed.
Print Assumptions C16_big_endian_narrow_refuted.

(** ** C17: a discriminant on the wire is the match value of the held alternative,
    and selects it. *)
Theorem C17_discriminant_on_wire : forall c fs vs pre id s n k v out pre' id' s' cases al k' j v' sj mv,
  wf fs = true -> typed fs = true -> has_fields fs vs ->
  field_at fs vs pre id (FFixed (TScalar s) n) k v ->
  field_at fs vs pre' id' (FUnion (GField id s' cases) al) k' (VAlt j v') ->
  nth_error cases j = Some (sj, mv) -> 0 <= mv < 256 ^ Z.of_nat (c_szw c) ->
  (forall i si m, (i < j)%nat -> nth_error cases i = Some (si, m) -> cxx_eq s' mv si m = false) ->
  (c_wire c = Little \/ n = ssize s) -> (1 < c_szw c)%nat ->
  wmem (stream_cast c fs vs) = (Ok tt, out) ->
  exists bs rest, out = bytes_before c pre (emitted c fs vs) ++ bs ++ rest /\ length bs = n /\
    number (c_wire c) bs = mv /\ first_case s' (number (c_wire c) bs) cases j.
Proof. exact disc_selects. Qed.
Print Assumptions C17_discriminant_on_wire.

Example C17_case :
  field_at frame frame_val (f_take 3 frame) "sel" (fixed u8) CNone (VZ 0) /\
  field_at frame frame_val (f_take 8 frame) "u" choice CNone (VAlt 1 (pt 2 3)) /\
  nth_error [(i32, 1); (i32, 7)] 1 = Some (i32, 7) /\ cxx_eq u8 7 i32 1 = false.
Proof. split; [at_pos 3%nat|]. split; [at_pos 8%nat|]. vm_compute. auto. Qed.

(** Match values distinct as size_t may be the same in the comparison: [-1] and
    [0xffffffffu] on an unsigned 32-bit discriminant.  The write succeeds, the
    reader picks the other alternative. *)
Theorem C17_mixed_cases_refuted : exists fs vs out,
  wf fs = true /\ typed fs = true /\ has_fields fs vs /\
  (-1) mod 256 ^ 8 <> 0xFFFFFFFF mod 256 ^ 8 /\
  wmem (stream_cast le64 fs vs) = (Ok tt, out) /\
  vs = [VZ 0; VAlt 1 (VZ 5)] /\
  rmem (struct_cast le64 fs) out = (Ok [VZ 0xFFFFFFFF; VAlt 0 (VZ 5)], []).
Proof.
  exists twins, [VZ 0; VAlt 1 (VZ 5)], [0xFF; 0xFF; 0xFF; 0xFF; 5].
  split; [reflexivity|]. split; [reflexivity|]. split; [has_it|]. vm_compute. repeat split; auto. discriminate.
Qed.
Print Assumptions C17_mixed_cases_refuted.

(** ** C18: dependents that disagree are detected, before anything of the field is
    written. *)
Theorem C18_contradicting_lengths : forall c fs vs pre id t k v z1 z2,
  wf fs = true -> typed fs = true -> has_fields fs vs -> field_at fs vs pre id t k v ->
  In z1 (claims c id fs vs) -> In z2 (claims c id fs vs) -> z1 <> z2 ->
  fails_with c fs vs pre id FoundContradictingLength [].
Proof. exact contradicting. Qed.
Print Assumptions C18_contradicting_lengths.

Example C18_case :
  let bad := frame_of 1 3 [1; 2] [3; 4; 5] (some [5; 6; 7]) (VAlt 1 (pt 2 3)) (VAlt 0 (VZ 8)) [9; 9] (pt 1 1) in
  has_fields frame bad /\ claims le64 "n" frame bad = [2; 3] /\
  wmem (stream_cast le64 frame bad) = (Err (FoundContradictingLength, "n"), [3]).
Proof. split; [has_it|]. vm_compute. auto. Qed.

(** ** C18, C26: and it is reported at a scalar field only for such a disagreement,
    or for a conditional container that is going to be written and has another
    count. *)
Theorem C18_C26_contradiction_reason : forall c fs vs pre id s n k v out,
  wf fs = true -> typed fs = true -> has_fields fs vs ->
  field_at fs vs pre id (FFixed (TScalar s) n) k v ->
  wmem (stream_cast c fs vs) = (Err (FoundContradictingLength, id), out) ->
  (exists z1 z2, In z1 (claims c id fs vs) /\ In z2 (claims c id fs vs) /\ z1 <> z2) \/
  (exists m z, In m (cond_claims (mk_env fs vs) id fs vs) /\
     slot (hd_error (claims c id fs vs)) k (FFixed (TScalar s) n) v = VZ z /\ m <> to_size c z).
Proof. exact contradiction_reason. Qed.
Print Assumptions C18_C26_contradiction_reason.

(** The optional container is absent: its length field is unconstrained. *)
Example C26_absent_case :
  let f := frame_of 2 77 [1; 2] [3; 4] VNone (VAlt 1 (pt 2 3)) (VAlt 0 (VZ 8)) [9; 9; 9; 9] (pt 1 1) in
  has_fields frame f /\ cond_claims (mk_env frame f) "m" frame f = [] /\
  fst (wmem (stream_cast le64 frame f)) = Ok tt.
Proof. split; [has_it|]. vm_compute. auto. Qed.

(** ** C19: a pinned field is written as the pinned value, and that value passes the
    constraint (when the literal is a value of the field's type). *)
Theorem C19_pinned_on_wire : forall c fs vs pre id t n k v w out,
  wf fs = true -> typed fs = true -> has_fields fs vs -> field_at fs vs pre id (FFixed t n) k v ->
  pinned t k = Some w -> claims c id fs vs = [] -> wmem (stream_cast c fs vs) = (Ok tt, out) ->
  exists bs rest, out = bytes_before c pre (emitted c fs vs) ++ bs ++ rest /\
    bs = enc_ty (c_wire c) (FFixed t n) w /\
    nth (f_len pre) (emitted c fs vs) VNone = w.
Proof. exact pinned_on_wire. Qed.
Print Assumptions C19_pinned_on_wire.

Theorem C19_pinned_holds : forall t n k w, constr_ok (FFixed t n) k = true -> pinned t k = Some w ->
  match t, k with
  | TScalar s, CCmp _ _ lit => sc_in s lit = true
  | TFloat u, CCmp _ _ lit => fdec u (fenc u (units lit)) = FFin (units lit)
  | TArr _ _, CArr _ lit => no_nan lit = true
  | _, _ => True
  end ->
  holds k w.
Proof. exact pinned_holds. Qed.
Print Assumptions C19_pinned_holds.

Example C19_case :
  field_at frame frame_val FNil "ver" (fixed u8) (CCmp OEq i32 3) (VZ 0) /\
  pinned (TScalar u8) (CCmp OEq i32 3) = Some (VZ 3) /\ claims le64 "ver" frame frame_val = [].
Proof. split; [at_pos 0%nat|]. vm_compute. auto. Qed.

(** [magic_number<"m", u8, 1_B, 0x1ff>]: what is written does not read back. *)
Theorem C19_unrepresentable_refuted : exists fs vs out rest,
  wf fs = true /\ typed fs = true /\ has_fields fs vs /\
  wmem (stream_cast le64 fs vs) = (Ok tt, out) /\
  rmem (struct_cast le64 fs) out = (Err (ValidationFailure, "m"), rest).
Proof.
  exists (FCons "m" (fixed u8) (CCmp OEq i32 0x1FF) FNil), [VZ 0], [0xFF], [].
  split; [reflexivity|]. split; [reflexivity|]. split; [has_it|]. vm_compute. auto.
Qed.
Print Assumptions C19_unrepresentable_refuted.

(** ** C20: slots the user cannot assign do not influence a write, when no callable
    reads them. *)
Theorem C20_unassignable_irrelevant : forall c fs vs vs',
  steady fs = true -> same_assignable fs vs vs' ->
  stream_cast c fs vs = stream_cast c fs vs'.
Proof. exact same_assignable_write. Qed.
Print Assumptions C20_unassignable_irrelevant.

Example C20_case : steady frame = true /\
  same_assignable frame frame_val (VZ 250 :: VZ 7 :: VZ 1 :: VZ 33 :: skipn 4 frame_val).
Proof.
  split; [reflexivity|]. unfold same_assignable. simpl. unfold overwritten. simpl.
  repeat (split; [first [discriminate | intros _; repeat split; auto; repeat constructor]|]); auto.
Qed.

(** A predicate that reads a derived length sees the stale slot. *)
Theorem C20_stale_slot_refuted : exists fs vs vs',
  wf fs = true /\ typed fs = true /\ has_fields fs vs /\ has_fields fs vs' /\
  same_assignable fs vs vs' /\
  fst (wmem (stream_cast le64 fs vs)) = Ok tt /\
  fst (wmem (stream_cast le64 fs vs')) = Err (ValidationFailure, "o").
Proof.
  exists stale, [VZ 0; VSeq [VZ 5]; VNone], [VZ 1; VSeq [VZ 5]; VNone].
  split; [reflexivity|]. split; [reflexivity|]. split; [has_it|]. split; [has_it|].
  split; [|vm_compute; auto]. unfold same_assignable. simpl. unfold overwritten. simpl.
  repeat (split; [first [discriminate | intros _; repeat split; auto]|]); auto.
Qed.
Print Assumptions C20_stale_slot_refuted.

(** ** C21 (write): presence must agree with the predicate. *)
Theorem C21_write_presence : forall c fs vs pre id b p ids k v args,
  wf fs = true -> typed fs = true -> has_fields fs vs ->
  field_at fs vs pre id (FMaybe b p ids) k v -> lookups (mk_env fs vs) ids = Some args ->
  (if p args then v = VNone else v <> VNone) ->
  (holds k v -> fails_with c fs vs pre id ValidationFailure []) /\
  fst (wmem (stream_cast c fs vs)) <> Ok tt.
Proof. exact presence. Qed.
Print Assumptions C21_write_presence.

Example C21_write_case :
  let bad := frame_of 1 3 [1; 2] [3; 4] VNone (VAlt 1 (pt 2 3)) (VAlt 0 (VZ 8)) [9; 9] (pt 1 1) in
  has_fields frame bad /\ lookups (mk_env frame bad) ["flags"] = Some [VZ 1] /\ bit0 [VZ 1] = true /\
  wmem (stream_cast le64 frame bad) = (Err (ValidationFailure, "zs"), firstn 12 frame_le).
Proof. split; [has_it|]. vm_compute. auto. Qed.

(** ** C22 (write): with a computed switch or a ladder, the held alternative must be
    the selected one. *)
Theorem C22_write_alternative : forall c fs vs pre id g al k i v,
  wf fs = true -> typed fs = true -> has_fields fs vs ->
  field_at fs vs pre id (FUnion g al) k (VAlt i v) -> is_match_field g = false ->
  (forall j, selects (mk_env fs vs) g j -> j <> i ->
     (holds k (VAlt i v) -> fails_with c fs vs pre id ValidationFailure []) /\
     fst (wmem (stream_cast c fs vs)) <> Ok tt) /\
  ((forall j, ~ selects (mk_env fs vs) g j) ->
     (holds k (VAlt i v) -> fails_with c fs vs pre id TypeDeductionFailure []) /\
     fst (wmem (stream_cast c fs vs)) <> Ok tt).
Proof. exact wrong_alternative. Qed.
Print Assumptions C22_write_alternative.

Example C22_write_case :
  let bad := frame_of 1 3 [1; 2] [3; 4] (some [5; 6; 7]) (VAlt 1 (pt 2 3)) (VAlt 1 (VZ 8)) [9; 9] (pt 1 1) in
  let none := frame_of 12 3 [1; 2] [3; 4] VNone (VAlt 1 (pt 2 3)) (VAlt 1 (VZ 8)) [9; 9] (pt 1 1) in
  wmem (stream_cast le64 frame bad) = (Err (ValidationFailure, "lad"), firstn 18 frame_le) /\
  fst (wmem (stream_cast le64 frame none)) = Err (TypeDeductionFailure, "lad").
Proof. vm_compute. auto. Qed.

(** ** C23: after a failure not caused by the stream, the stream holds the fields
    before the failing one and nothing of it, unless it contains records. *)
Theorem C23_nothing_of_the_failed_field : forall c S fs vs s r id s' ch,
  wf fs = true -> typed fs = true -> has_fields fs vs ->
  wrun S (stream_cast c fs vs) s = (Err (r, id), s', ch) -> r <> BufferExhaustion ->
  exists pre t k v part, field_at fs vs pre id t k v /\
    concat (map fst ch) = bytes_before c pre (emitted c fs vs) ++ part /\
    (atomic t = true -> part = []).
Proof. exact nothing_of_failed. Qed.
Print Assumptions C23_nothing_of_the_failed_field.

Example C23_case :
  let bad := frame_of 1 4 [1; 2] [3; 4] (some [5; 6; 7]) (VAlt 1 (pt 2 3)) (VAlt 0 (VZ 8)) [9; 9] (pt 1 1) in
  fst (wrun budget_stream (stream_cast le64 frame bad) 100%nat) = (Err (FoundContradictingLength, "m"), 95%nat) /\
  snd (wrun budget_stream (stream_cast le64 frame bad) 100%nat) =
    [([3], true); ([2; 0], true); ([1], true); ([7], true)].
Proof. vm_compute. auto. Qed.

(** A record whose second field fails leaves its first field behind. *)
Theorem C23_records_refuted : exists fs vs id,
  wf fs = true /\ typed fs = true /\ has_fields fs vs /\ f_ids fs = [id] /\
  wmem (stream_cast le64 fs vs) = (Err (ValidationFailure, id), [1; 0]).
Proof.
  exists (FCons "r" (FStruct point) CNone FNil), [pt 1 (-6)], "r".
  split; [reflexivity|]. split; [reflexivity|]. split; [has_it|]. vm_compute. auto.
Qed.
Print Assumptions C23_records_refuted.

(** ** C24: whatever the stream does, it is handed a prefix of what a healthy stream
    would get; a refusal is buffer_exhaustion at the field being written. *)
Theorem C24_prefix : forall c S fs vs s o s' ch,
  wf fs = true -> typed fs = true -> has_fields fs vs ->
  wrun S (stream_cast c fs vs) s = (o, s', ch) ->
  (exists tail, snd (wmem (stream_cast c fs vs)) = concat (map fst ch) ++ tail) /\
  ((forall bs, ~ In (bs, false) ch) /\ (o, concat (map fst ch)) = wmem (stream_cast c fs vs) \/
   exists ch' bs pre id t k v part tail,
     ch = ch' ++ [(bs, false)] /\ (forall b, ~ In (b, false) ch') /\
     o = Err (BufferExhaustion, id) /\ field_at fs vs pre id t k v /\
     concat (map fst ch') ++ bs = bytes_before c pre (emitted c fs vs) ++ part ++ bs /\
     enc_ty (c_wire c) t (nth (f_len pre) (emitted c fs vs) VNone) = part ++ bs ++ tail).
Proof. exact write_prefix. Qed.
Print Assumptions C24_prefix.

Example C24_case :
  wrun budget_stream (stream_cast be64 frame frame_val) 8%nat =
  (Err (BufferExhaustion, "xs"), 0%nat,
   [([3], true); ([0; 2], true); ([1], true); ([7], true); ([3], true); ([0; 1], true); ([0; 2], false)]).
Proof. vm_compute. reflexivity. Qed.

(** ** C25: computed lengths are verified. *)
Theorem C25_computed_length : forall c fs vs pre id t k xs f ids args,
  wf fs = true -> typed fs = true -> has_fields fs vs -> field_at fs vs pre id t k (VSeq xs) ->
  computed_len t = Some (f, ids) -> lookups (mk_env fs vs) ids = Some args ->
  Z.of_nat (length xs) <> to_size c (f args) ->
  (holds k (VSeq xs) -> fails_with c fs vs pre id FoundContradictingLength []) /\
  fst (wmem (stream_cast c fs vs)) <> Ok tt.
Proof. exact miscounted. Qed.
Print Assumptions C25_computed_length.

Example C25_case :
  let bad := frame_of 1 3 [1; 2] [3; 4] (some [5; 6; 7]) (VAlt 1 (pt 2 3)) (VAlt 0 (VZ 8)) [9; 9; 9] (pt 1 1) in
  has_fields frame bad /\
  wmem (stream_cast le64 frame bad) = (Err (FoundContradictingLength, "cs"), firstn 19 frame_le).
Proof. split; [has_it|]. vm_compute. auto. Qed.

(** ** C26: conditional lengths are verified against the value that goes out. *)
Theorem C26_conditional_length : forall c fs vs pre id t k v m z,
  wf fs = true -> typed fs = true -> has_fields fs vs -> field_at fs vs pre id t k v ->
  In m (cond_claims (mk_env fs vs) id fs vs) -> claims c id fs vs = [] ->
  slot None k t v = VZ z -> m <> to_size c z -> holds k v ->
  fails_with c fs vs pre id FoundContradictingLength [].
Proof. exact unverified_exact. Qed.
Print Assumptions C26_conditional_length.

(** The same when the field is also a derived length, whose other checks come
    first. *)
Theorem C26_conditional_and_derived : forall c fs vs pre id t k v m z,
  wf fs = true -> typed fs = true -> has_fields fs vs -> field_at fs vs pre id t k v ->
  In m (cond_claims (mk_env fs vs) id fs vs) ->
  slot (hd_error (claims c id fs vs)) k t (emit_ty c t v) = VZ z -> m <> to_size c z ->
  exists r, (r = FoundContradictingLength \/ r = ValidationFailure) /\ fails_with c fs vs pre id r [].
Proof. exact unverified. Qed.
Print Assumptions C26_conditional_and_derived.

Example C26_case :
  let bad := frame_of 1 4 [1; 2] [3; 4] (some [5; 6; 7]) (VAlt 1 (pt 2 3)) (VAlt 0 (VZ 8)) [9; 9] (pt 1 1) in
  has_fields frame bad /\ cond_claims (mk_env frame bad) "m" frame bad = [3] /\
  wmem (stream_cast le64 frame bad) = (Err (FoundContradictingLength, "m"), firstn 5 frame_le).
Proof. split; [has_it|]. vm_compute. auto. Qed.

(** ** C27: a length that does not fit is rejected. *)
Theorem C27_misfit : forall c fs vs pre id s n k v z,
  wf fs = true -> typed fs = true -> has_fields fs vs ->
  field_at fs vs pre id (FFixed (TScalar s) n) k v ->
  In z (claims c id fs vs) -> (forall z', In z' (claims c id fs vs) -> z' = z) ->
  (256 ^ Z.of_nat n <= z \/ (sc_in s z = false /\ (ssize s < c_szw c)%nat)) ->
  fails_with c fs vs pre id ValidationFailure [].
Proof. exact misfit. Qed.
Print Assumptions C27_misfit.

(** 200 elements with a signed byte as length; 300 with a [u16] declared 1 byte. *)
Example C27_case :
  wf (short_len u16) = true /\ typed (short_len u16) = true /\
  wmem (stream_cast le64 (short_len i8) [VZ 0; VSeq (repeat (VZ 1) 200)]) = (Err (ValidationFailure, "n"), []) /\
  wmem (stream_cast le64 (short_len u16) [VZ 0; VSeq (repeat (VZ 1) 300)]) = (Err (ValidationFailure, "n"), []).
Proof. vm_compute. auto. Qed.

(** A length that is only verified (its container is optional) is not checked
    against the declared width: 300 elements, one byte, 44 on the wire. *)
Theorem C27_verified_length_refuted : exists fs vs rest,
  wf fs = true /\ typed fs = true /\ vs = [VZ 300; VZ 1; VSome (VSeq (repeat (VZ 1) 300))] /\
  wmem (stream_cast le64 fs vs) = (Ok tt, 44 :: rest) /\
  layout_fields (f_take 1 fs) = Some 1%nat.
Proof.
  exists verified_len. eexists. exists (1 :: repeat 1 300).
  split; [reflexivity|]. split; [reflexivity|]. split; [reflexivity|]. vm_compute. auto.
Qed.
Print Assumptions C27_verified_length_refuted.

(** ** C30, C42 (write): a write ends in success or a documented error at a field of
    the schema; undefined behaviour needs a [bool], a [fixed_string] constraint or an integer
    literal on a floating-point field. *)
Theorem C30_C42_write_total : forall c S fs vs s o s' ch,
  wf fs = true -> typed fs = true -> has_fields fs vs ->
  wrun S (stream_cast c fs vs) s = (o, s', ch) ->
  o = Ok tt \/ (exists r id, o = Err (r, id) /\ In id (f_ids fs)) \/
  (o = UB /\ plain_fields fs = false).
Proof. exact write_total. Qed.
Print Assumptions C30_C42_write_total.

Example C42_write_case : has_fields frame frame_val /\ plain_fields frame = true.
Proof. split; [has_it|reflexivity]. Qed.

(** ** C35 (write): fixed-layout schemas emit a fixed number of bytes. *)
Theorem C35_write_fixed_size : forall c fs n vs out,
  wf fs = true -> typed fs = true -> has_fields fs vs -> layout_fields fs = Some n ->
  wmem (stream_cast c fs vs) = (Ok tt, out) -> length out = n.
Proof. exact layout_write. Qed.
Print Assumptions C35_write_fixed_size.

Example C35_write_case :
  layout_fields point = Some 3%nat /\ has_fields point [VZ 1; VZ 2] /\
  wmem (stream_cast be64 point [VZ 1; VZ 2]) = (Ok tt, [0; 1; 2]).
Proof. split; [reflexivity|]. split; [has_it|reflexivity]. Qed.

(** ** C36 (write): a record field writes its records exactly as on their own; a
    failure inside is reported under the outer field's name. *)
Theorem C36_write_records : forall c fs vs pre id t k v gs wss,
  wf fs = true -> typed fs = true -> has_fields fs vs -> field_at fs vs pre id t k v ->
  records_of t v = Some (gs, wss) -> holds k v -> counted c (mk_env fs vs) t v ->
  match write_each c gs wss with
  | (Err (r, _), part) => fails_with c fs vs pre id r part
  | (Ok _, part) =>
      (forall r out, wmem (stream_cast c fs vs) <> (Err (r, id), out)) /\
      (forall out, wmem (stream_cast c fs vs) = (Ok tt, out) ->
         exists rest, out = bytes_before c pre (emitted c fs vs) ++ part ++ rest)
  | _ => fst (wmem (stream_cast c fs vs)) <> Ok tt
  end.
Proof. exact records_write. Qed.
Print Assumptions C36_write_records.

Example C36_write_case :
  records_of (FArrRec 2 point) (VSeq [pt 1 2; pt 3 (-6)]) = Some (point, [[VZ 1; VZ 2]; [VZ 3; VZ (-6)]]) /\
  write_each le64 point [[VZ 1; VZ 2]; [VZ 3; VZ (-6)]] = (Err (ValidationFailure, "y"), [1; 0; 2; 3; 0]).
Proof. vm_compute. auto. Qed.
