(** * C50, C52: exactly what can be written and read, and what stops the rest *)
From Verif Require Import PropDefs WExact RExact Examples ExactFacts ReadFinal RExactFacts.
Import ListNotations.

(** ** C50: writing.  Success is [writable], and the bytes are the encoding of the struct with its
    derived slots filled in. *)
Theorem C50_success : forall c fs vs out,
  wf fs = true -> typed fs = true -> has_fields fs vs ->
  (wmem (stream_cast c fs vs) = (Ok tt, out) <->
   writable c fs vs /\ out = enc_fields (c_wire c) fs (emitted c fs vs)).
Proof. exact write_ok_iff. Qed.
Print Assumptions C50_success.

Example C50_success_case : writable le64 frame frame_val /\
  enc_fields Little frame (emitted le64 frame frame_val) = frame_le.
Proof.
  destruct (proj1 (write_ok_iff le64 frame frame_val frame_le eq_refl eq_refl frame_has) eq_refl)
    as [H1 H2]. split; [exact H1 | symmetry; exact H2].
Qed.

(** A failure at [id] for reason [r] is: the fields before it are in order, and it has
    that fault. *)
Theorem C50_failure : forall c fs vs r id,
  wf fs = true -> typed fs = true -> has_fields fs vs ->
  (fst (wmem (stream_cast c fs vs)) = Err (r, id) <->
   exists pre t k v, field_at fs vs pre id t k v /\
     ok_fields c fs vs pre (firstn (f_len pre) vs) /\ fault_field c fs vs id t k v r).
Proof. exact write_err_iff. Qed.
Print Assumptions C50_failure.

(** [xs] and [ys] disagree about [n]; the field [n] is where that is found. *)
Definition torn : list val :=
  frame_of 1 3 [1; 2] [3; 4; 5] (some [5; 6; 7]) (VAlt 1 (pt 2 3)) (VAlt 0 (VZ 8)) [9; 9] (pt 1 1).

Example C50_failure_case : has_fields frame torn /\
  exists pre t k v, field_at frame torn pre "n" t k v /\
    ok_fields le64 frame torn pre (firstn (f_len pre) torn) /\
    fault_field le64 frame torn "n" t k v FoundContradictingLength.
Proof.
  split; [has_it|]. exists (f_take 1 frame), (fixed u16), CNone, (VZ 99).
  split; [at_pos 1%nat|]. split.
  - simpl. split; [intros m []|exact I].
  - simpl. left. split; [|reflexivity]. intros H. inversion H. vm_compute in H2. discriminate.
Qed.

(** Without [bool] slots, string comparisons and integer literals on floating-point fields
    there is no third outcome. *)
Theorem C50_decided : forall c fs vs,
  wf fs = true -> typed fs = true -> has_fields fs vs -> plain_fields fs = true ->
  writable c fs vs \/
  exists pre id t k v r, field_at fs vs pre id t k v /\
     ok_fields c fs vs pre (firstn (f_len pre) vs) /\ fault_field c fs vs id t k v r.
Proof. exact write_decided. Qed.
Print Assumptions C50_decided.

Example C50_decided_case : plain_fields frame = true /\ ~ writable le64 frame torn.
Proof.
  split; [reflexivity|]. unfold writable, frame. cbn [ok_fields]. intros (_ & H & _).
  simpl in H. destruct H as [H _]. inversion H. vm_compute in H2. discriminate.
Qed.

(** ** C52: reading.  Success is: the input starts with the encoding of a valid
    struct. *)
Theorem C52_success : forall c fs bs vs rest,
  wf fs = true -> Forall byte_ok bs ->
  (rmem (struct_cast c fs) bs = (Ok vs, rest) <->
   valid c fs vs /\ bs = enc_fields (c_wire c) fs vs ++ rest).
Proof. exact read_ok_iff. Qed.
Print Assumptions C52_success.

(** A failure at [id] for reason [r] is: the input starts with valid values of the
    fields before it, and what follows has that fault. *)
Theorem C52_failure : forall c fs bs r id,
  wf fs = true -> typed fs = true -> Forall byte_ok bs ->
  (fst (rmem (struct_cast c fs) bs) = Err (r, id) <->
   exists pre t k post vs rest, fs = f_app pre (FCons id t k post) /\
     valid c pre vs /\ bs = enc_fields (c_wire c) pre vs ++ rest /\
     rfault_field c (mk_env pre vs) t k rest r).
Proof. exact read_err_iff. Qed.
Print Assumptions C52_failure.

(** [body] has a ceiling of 8 bytes; the length field asks for five 16-bit elements. *)
Example C52_failure_case :
  let bs := [0xCA; 0xFE; 5; 0; 1; 0; 1; 0; 2] in
  valid be64 head [VZ 0xCAFE; VZ 5; VZ 1] /\
  bs = enc_fields Big head [VZ 0xCAFE; VZ 5; VZ 1] ++ [0; 1; 0; 2] /\
  rfault_field be64 (mk_env head [VZ 0xCAFE; VZ 5; VZ 1]) body CNone [0; 1; 0; 2] ExcessiveLength /\
  fst (rmem (struct_cast be64 packet) bs) = Err (ExcessiveLength, "body").
Proof.
  split; [|split; [reflexivity|split; [|vm_compute; reflexivity]]].
  - unfold valid, representable. simpl. unfold representable. simpl.
    repeat split; repeat constructor. exists 0xCAFE. split; [exact (io_int _ 0xCAFE)|reflexivity].
  - left. exists 5%nat. split; [exists 5; split; reflexivity|]. left. split; [|reflexivity].
    unfold within. simpl. Lia.lia.
Qed.

(** Without [bool] slots, string comparisons and integer literals on floating-point fields
    there is no third outcome. *)
Theorem C52_decided : forall c fs bs,
  wf fs = true -> typed fs = true -> plain_fields fs = true -> Forall byte_ok bs ->
  (exists vs rest, valid c fs vs /\ bs = enc_fields (c_wire c) fs vs ++ rest) \/
  (exists pre id t k post vs rest r, fs = f_app pre (FCons id t k post) /\
     valid c pre vs /\ bs = enc_fields (c_wire c) pre vs ++ rest /\
     rfault_field c (mk_env pre vs) t k rest r).
Proof. exact read_decided. Qed.
Print Assumptions C52_decided.

Example C52_decided_case : plain_fields packet = true /\
  rmem (struct_cast be64 packet) packet_be = (Ok packet_val, []) /\
  fst (rmem (struct_cast be64 packet) (firstn 40 packet_be)) = Err (BufferExhaustion, "pts").
Proof. vm_compute. auto. Qed.
