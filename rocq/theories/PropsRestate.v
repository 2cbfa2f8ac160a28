(** * C95: a named length or discriminant and the computation it stands for *)
From Verif Require Import RestateSpec RestateFacts Typing Examples.
Import ListNotations.

(** Reading: the same outcome, the same calls of the stream and of the allocator. *)
Theorem C95_read : forall c fs fs' S alloc s,
  wf fs = true -> typed fs = true -> restated_fields fs fs' -> delivers S ->
  rrun S alloc (struct_cast c fs') s = rrun S alloc (struct_cast c fs) s.
Proof. exact restated_run. Qed.
Print Assumptions C95_read.

(** The same structs are valid. *)
Theorem C95_valid : forall c fs fs' vs,
  wf fs = true -> typed fs = true -> restated_fields fs fs' ->
  valid c fs' vs <-> valid c fs vs.
Proof. exact restated_valid. Qed.
Print Assumptions C95_valid.

(** With everything restated no slot is overwritten for the sake of another field, and a
    valid struct is written as its encoding whatever the types of its lengths and match
    values. *)
Theorem C95_write : forall c fs vs,
  wf fs = true -> typed fs = true -> pins_fields fs = true -> valid c fs vs ->
  wmem (stream_cast c (explicit fs) vs) = (Ok tt, enc_fields (c_wire c) fs vs).
Proof. exact explicit_write. Qed.
Print Assumptions C95_write.

Theorem C95_explicit : forall fs, wf fs = true -> typed fs = true ->
  restated_fields fs (explicit fs) /\ wf (explicit fs) = true /\ typed (explicit fs) = true /\
  sources (explicit fs) = [].
Proof. exact explicit_keeps. Qed.
Print Assumptions C95_explicit.

Example C95_case :
  wf packet = true /\ typed packet = true /\ pins_fields packet = true /\
  valid be64 packet packet_val /\ explicit packet <> packet /\
  wmem (stream_cast be64 (explicit packet) packet_val) = (Ok tt, packet_be) /\
  rmem (struct_cast be64 (explicit packet)) packet_be = (Ok packet_val, []).
Proof.
  assert (Hw : wf packet = true) by (vm_compute; reflexivity).
  assert (Hr : rmem (struct_cast be64 packet) packet_be = (Ok packet_val, []))
    by (vm_compute; reflexivity).
  split; [exact Hw|]. split; [vm_compute; reflexivity|]. split; [vm_compute; reflexivity|].
  split. { apply (ReadFinal.read_sound be64 packet packet_be packet_val []); auto. repeat constructor; lia. }
  split; [vm_compute; discriminate|]. split; vm_compute; reflexivity.
Qed.

(** A switch as a ladder, and a negative match value: the named form reads the message but
    refuses to write it (C17), the restated one does both. *)
Definition rs_alt : alts := ACons (fixed u8) CNone (ACons (fixed u16) CNone ANil).
Definition rs_named : fields :=
  FCons "d" (fixed i8) CNone
  (FCons "u" (FUnion (GField "d" i8 [(i32, 1); (i32, -1)]) rs_alt) CNone FNil).
Definition rs_ladder : fields :=
  FCons "d" (fixed i8) CNone
  (FCons "u" (FUnion (GLadder (map (branch the_number i8 ["d"]) [(i32, 1); (i32, -1)])) rs_alt) CNone FNil).

Example C95_negative :
  restated_fields rs_named rs_ladder /\ wf rs_named = true /\ typed rs_named = true /\
  rmem (struct_cast le64 rs_named) [255; 3; 0] = (Ok [VZ (-1); VAlt 1 (VZ 3)], []) /\
  rmem (struct_cast le64 rs_ladder) [255; 3; 0] = (Ok [VZ (-1); VAlt 1 (VZ 3)], []) /\
  wmem (stream_cast le64 rs_ladder [VZ (-1); VAlt 1 (VZ 3)]) = (Ok tt, [255; 3; 0]) /\
  wmem (stream_cast le64 (explicit rs_named) [VZ (-1); VAlt 1 (VZ 3)]) = (Ok tt, [255; 3; 0]) /\
  fst (wmem (stream_cast le64 rs_named [VZ (-1); VAlt 1 (VZ 3)])) = Err (ValidationFailure, "d").
Proof.
  split; [repeat constructor|]. repeat split; vm_compute; reflexivity.
Qed.
