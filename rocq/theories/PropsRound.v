(** * Round trips

    Guards (WSpec.v), all of them computable on the schema or readable off the
    struct:
    - [clean_fields c fs]: match values are non-negative values of the
      discriminant's type that the reader's comparison tells apart; pinned literals
      are values of their field's type
    - [sized_fields c fs vs]: every value survives its declared width, every
      container is within its allocation ceiling
    - [in_sync c fs vs]: no callable reads a slot that the writer replaces by
      another value; [steady fs]: no callable reads a replaced slot at all
    - [reversible c fs]: lengths are taken from fields no wider than [size_t]
      whose low-order bytes are on the wire, an [eq] has one solution *)
From Verif Require Import PropDefs Typing Streams Examples.
From Verif Require Import RTrip RTrip2 Rewrite.

(** ** C03: what was written reads back as the struct that went out, which agrees
    with the given one on every slot the user can assign. *)
Theorem C03_round_trip : forall c fs vs out rest,
  wf fs = true -> typed fs = true -> has_fields fs vs ->
  clean_fields c fs = true -> in_sync c fs vs -> sized_fields c fs (emitted c fs vs) ->
  wmem (stream_cast c fs vs) = (Ok tt, out) ->
  rmem (struct_cast c fs) (out ++ rest) = (Ok (emitted c fs vs), rest) /\
  same_assignable fs vs (emitted c fs vs).
Proof. exact round_trip_full. Qed.
Print Assumptions C03_round_trip.

Theorem C03_round_trip_steady : forall c fs vs out rest,
  wf fs = true -> typed fs = true -> has_fields fs vs ->
  clean_fields c fs = true -> steady fs = true -> free_fields fs = true ->
  sized_fields c fs (emitted c fs vs) ->
  wmem (stream_cast c fs vs) = (Ok tt, out) ->
  rmem (struct_cast c fs) (out ++ rest) = (Ok (emitted c fs vs), rest) /\
  same_assignable fs vs (emitted c fs vs).
Proof. exact round_trip_steady. Qed.
Print Assumptions C03_round_trip_steady.

(** The bytes are those of the struct that went out, without any guard. *)
Theorem C03_write_encodes : forall c fs vs out,
  wf fs = true -> typed fs = true -> has_fields fs vs ->
  wmem (stream_cast c fs vs) = (Ok tt, out) ->
  out = enc_fields (c_wire c) fs (emitted c fs vs).
Proof. exact write_encodes. Qed.
Print Assumptions C03_write_encodes.

(** They read back as that struct exactly if it is what some message says ([valid]):
    no guard is missing and none is too many. *)
Theorem C03_exact : forall c fs vs out rest,
  wf fs = true -> typed fs = true -> has_fields fs vs -> Forall byte_ok rest ->
  wmem (stream_cast c fs vs) = (Ok tt, out) ->
  (rmem (struct_cast c fs) (out ++ rest) = (Ok (emitted c fs vs), rest) <->
   valid c fs (emitted c fs vs)).
Proof. exact round_trip_exact. Qed.
Print Assumptions C03_exact.

Example C03_case :
  has_fields frame frame_val /\ clean_fields be64 frame = true /\ steady frame = true /\
  free_fields frame = true /\ sized_fields be64 frame (emitted be64 frame frame_val) /\
  emitted be64 frame frame_val <> frame_val /\
  fst (wmem (stream_cast be64 frame frame_val)) = Ok tt.
Proof.
  split; [has_it|]. do 3 (split; [vm_compute; reflexivity|]).
  split; [vm_compute; repeat split; repeat constructor; discriminate|].
  split; [discriminate|vm_compute; reflexivity].
Qed.

(** Without the width guard: 300 in a byte reads back as 44. *)
Theorem C03_narrow_refuted : exists fs vs out vs',
  wf fs = true /\ typed fs = true /\ has_fields fs vs /\ clean_fields le64 fs = true /\
  steady fs = true /\ wmem (stream_cast le64 fs vs) = (Ok tt, out) /\
  rmem (struct_cast le64 fs) out = (Ok vs', []) /\ ~ same_assignable fs vs vs'.
Proof.
  exists (slot16 1), [VZ 300], [44], [VZ 44]. repeat split; try reflexivity.
  intros [H _]. destruct (H eq_refl) as [H' _]. discriminate.
Qed.
Print Assumptions C03_narrow_refuted.

(** Without the ceiling guard: the writer does not enforce [max_bytes]. *)
Theorem C03_ceiling_refuted : exists fs vs out,
  wf fs = true /\ typed fs = true /\ has_fields fs vs /\ clean_fields le64 fs = true /\
  steady fs = true /\ wmem (stream_cast le64 fs vs) = (Ok tt, out) /\
  fst (rmem (struct_cast le64 fs) out) = Err (ExcessiveLength, "xs").
Proof.
  exists (bounded 1), [VZ 0; VSeq [VZ 7; VZ 8]], [2; 7; 8].
  split; [reflexivity|]. split; [reflexivity|]. split; [has_it|]. repeat split; reflexivity.
Qed.
Print Assumptions C03_ceiling_refuted.

(** Without the callable guard: a predicate reads the stored length, 0, when writing,
    and the derived one, 1, when reading. *)
Theorem C03_stale_refuted : exists fs vs out,
  wf fs = true /\ typed fs = true /\ has_fields fs vs /\ clean_fields le64 fs = true /\
  sized_fields le64 fs (emitted le64 fs vs) /\ wmem (stream_cast le64 fs vs) = (Ok tt, out) /\
  fst (rmem (struct_cast le64 fs) out) = Err (BufferExhaustion, "o").
Proof.
  exists stale, [VZ 0; VSeq [VZ 7]; VNone], [1; 7].
  split; [reflexivity|]. split; [reflexivity|]. split; [has_it|]. split; [reflexivity|].
  split; [vm_compute; repeat split; repeat constructor; discriminate|]. split; reflexivity.
Qed.
Print Assumptions C03_stale_refuted.

(** ** C04: a struct that was read is written back to the bytes it was read from. *)
Theorem C04_read_then_write : forall c fs bs vs rest,
  wf fs = true -> typed fs = true -> reversible c fs = true ->
  Forall byte_ok bs -> rmem (struct_cast c fs) bs = (Ok vs, rest) ->
  exists used, bs = used ++ rest /\ wmem (stream_cast c fs vs) = (Ok tt, used).
Proof. exact read_then_write. Qed.
Print Assumptions C04_read_then_write.

(** The same for a valid struct, however obtained. *)
Theorem C04_write_valid : forall c fs vs,
  wf fs = true -> typed fs = true -> reversible c fs = true -> valid c fs vs ->
  wmem (stream_cast c fs vs) = (Ok tt, enc_fields (c_wire c) fs vs).
Proof. exact rewrite_valid. Qed.
Print Assumptions C04_write_valid.

Example C04_case : reversible be64 packet = true /\ reversible le64 frame = true /\
  wmem (stream_cast be64 packet packet_val) = (Ok tt, packet_be) /\
  rmem (struct_cast le64 frame) (frame_le ++ [1]) = (Ok (emitted le64 frame frame_val), [1]) /\
  wmem (stream_cast le64 frame (emitted le64 frame frame_val)) = (Ok tt, frame_le).
Proof. vm_compute. auto. Qed.

(** [eq] against a narrower literal type accepts other values, which are replaced. *)
Theorem C04_wide_eq_refuted : exists fs bs vs out,
  wf fs = true /\ typed fs = true /\ rmem (struct_cast le64 fs) bs = (Ok vs, []) /\
  wmem (stream_cast le64 fs vs) = (Ok tt, out) /\ out <> bs.
Proof.
  exists wide_eq, [5; 0; 0; 0; 1; 0; 0; 0], [VZ 0x100000005], [5; 0; 0; 0; 0; 0; 0; 0].
  repeat split; try reflexivity. discriminate.
Qed.
Print Assumptions C04_wide_eq_refuted.

(** Characters after the first NUL are not compared, and are replaced. *)
Theorem C04_string_tail_refuted : exists fs bs vs out,
  wf fs = true /\ typed fs = true /\ rmem (struct_cast le64 fs) bs = (Ok vs, []) /\
  wmem (stream_cast le64 fs vs) = (Ok tt, out) /\ out <> bs.
Proof.
  exists name_eq, [97; 0; 99; 0], [VSeq [VZ 97; VZ 0; VZ 99; VZ 0]], [97; 0; 98; 0].
  repeat split; try reflexivity. discriminate.
Qed.
Print Assumptions C04_string_tail_refuted.

(** A negative match value is readable but not writable. *)
Theorem C04_negative_case_refuted : exists fs bs vs,
  wf fs = true /\ typed fs = true /\ rmem (struct_cast le64 fs) bs = (Ok vs, []) /\
  wmem (stream_cast le64 fs vs) = (Err (ValidationFailure, "d"), []).
Proof. exists neg_case, [255; 9], [VZ (-1); VAlt 0 (VZ 9)]. repeat split; reflexivity. Qed.
Print Assumptions C04_negative_case_refuted.

(** A length field narrower than its type reads as a multiple of 256 in big endian,
    which does not fit its declared width on the way out. *)
Theorem C04_narrow_length_refuted : exists fs bs vs,
  wf fs = true /\ typed fs = true /\ rmem (struct_cast be64 fs) bs = (Ok vs, []) /\
  wmem (stream_cast be64 fs vs) = (Err (ValidationFailure, "n"), []).
Proof.
  exists (short_len u16), (1 :: repeat 7 256), [VZ 256; VSeq (repeat (VZ 7) 256)].
  repeat split; vm_compute; reflexivity.
Qed.
Print Assumptions C04_narrow_length_refuted.
