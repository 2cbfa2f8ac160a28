(** * C82-C84: exceptions, and user code that keeps state *)
From Verif Require Import UserSpec UserFacts UserWrite UserRead Typing Examples.
Import ListNotations.

(** ** C82: as long as user code answers like a function if it answers, the casts are
    those of Read.v and Write.v: same result, same dealings with the stream and the
    allocator; an exception only cuts them short. *)
Theorem C82_read : forall c fs H s o s' ev, honest H ->
  urun H (u_struct_cast c fs) s = (o, s', ev) ->
  (o <> Throw ->
   rrun replay grants (struct_cast c fs) (flat_map read_answer ev) = (o, [], flat_map io_read ev)) /\
  (o = Throw -> exists o' st rest,
   rrun replay grants (struct_cast c fs) (flat_map read_answer ev) = (o', st, flat_map io_read ev ++ rest)).
Proof. exact honest_read. Qed.
Print Assumptions C82_read.

Theorem C82_write : forall c fs vs H s o s' ev, honest H ->
  urun H (u_stream_cast c fs vs) s = (o, s', ev) ->
  (o <> Throw ->
   wrun replay_out (stream_cast c fs vs) (flat_map write_answer ev) = (o, [], flat_map io_write ev)) /\
  (o = Throw -> exists o' st rest,
   wrun replay_out (stream_cast c fs vs) (flat_map write_answer ev) = (o', st, flat_map io_write ev ++ rest)).
Proof. exact honest_write. Qed.
Print Assumptions C82_write.

(** A plain stream and functions: nothing but the plain casts. *)
Theorem C82_read_pure : forall c fs S s o s' ev,
  urun (pure_in S) (u_struct_cast c fs) s = (o, s', ev) ->
  rrun S grants (struct_cast c fs) s = (o, s', flat_map io_read ev).
Proof. exact pure_read. Qed.
Print Assumptions C82_read_pure.

Theorem C82_write_pure : forall c fs vs S s o s' ev,
  urun (pure_out S) (u_stream_cast c fs vs) s = (o, s', ev) ->
  wrun S (stream_cast c fs vs) s = (o, s', flat_map io_write ev).
Proof. exact pure_write. Qed.
Print Assumptions C82_write_pure.

(** An exception of the stream, the allocator or user code leaves the cast at once, and
    there is no other. *)
Theorem C82_throw : forall c fs H s o s' ev,
  urun H (u_struct_cast c fs) s = (o, s', ev) ->
  (o = Throw <-> exists x, In x ev /\ threw x = true) /\
  (forall ev1 x ev2, ev = ev1 ++ x :: ev2 -> threw x = true -> ev2 = []).
Proof. intros c fs H. exact (urun_throw H (u_struct_cast c fs)). Qed.
Print Assumptions C82_throw.

Theorem C82_throw_write : forall c fs vs H s o s' ev,
  urun H (u_stream_cast c fs vs) s = (o, s', ev) ->
  (o = Throw <-> exists x, In x ev /\ threw x = true) /\
  (forall ev1 x ev2, ev = ev1 ++ x :: ev2 -> threw x = true -> ev2 = []).
Proof. intros c fs vs H. exact (urun_throw H (u_stream_cast c fs vs)). Qed.
Print Assumptions C82_throw_write.

(** An environment whose predicates answer from a script and throw when it is over, and
    which has no more than a thousand bytes of memory. *)
Definition moody : host :=
  mkH (list Z * list bool)
    (fun s n => let '(r, l) := list_read (fst s) n in
                (Some (option_map (map (fun b => b mod 256)) r), (l, snd s)))
    (fun s bs => (Some true, (fst s ++ bs, snd s)))
    (fun s n => (if n <=? 1000 then Some tt else None, s))
    (fun s f args => (Some (f args), s))
    (fun s p args => match snd s with b :: l => (Some b, (fst s, l)) | [] => (None, s) end)
    (fun s p v => (Some (p v), s)).

(** A predicate that counts its calls and throws at the third. *)
Definition counting : host :=
  mkH (list Z * nat)
    (fun s n => let '(r, l) := list_read (fst s) n in (Some r, (l, snd s)))
    (fun s bs => (Some true, (fst s ++ bs, snd s)))
    (fun s n => (Some tt, s))
    (fun s f args => (Some (f args), s))
    (fun s p args => (if Nat.ltb (snd s) 2 then Some (p args) else None, (fst s, S (snd s))))
    (fun s p v => (Some (p v), s)).

Example C82_case : honest counting /\
  fst (urun counting (u_struct_cast le64 frame) (frame_le, 0%nat)) = (Ok (emitted le64 frame frame_val), ([], 2%nat)) /\
  fst (fst (urun counting (u_struct_cast le64 frame) (frame_le, 1%nat))) = Throw /\
  fst (fst (urun counting (u_stream_cast le64 frame frame_val) ([], 0%nat))) = Throw /\
  snd (fst (urun counting (u_stream_cast le64 frame frame_val) ([], 0%nat))) =
    ([3; 2; 0; 1; 7; 3; 1; 0; 2; 0; 3; 4; 5; 6; 7; 2; 0; 3], 3%nat).
Proof.
  split; [|repeat split; vm_compute; reflexivity].
  repeat split; simpl; intros; try congruence. destruct (Nat.ltb _ _); congruence.
Qed.

(** ** C83: reading, whatever user code does.  A read that succeeds returns a struct every
    part of which is explained by what was asked and answered, in that order; it never
    reaches undefined behaviour that plain schemas exclude. *)
Theorem C83_read : forall c fs H s o s' ev,
  wf fs = true -> typed fs = true -> hands_over H ->
  urun H (u_struct_cast c fs) s = (o, s', ev) ->
  o <> Stuck /\ (plain_fields fs = true -> o <> UB) /\
  (forall vs, o = Ok vs -> has_fields fs vs /\
     heard_fields c (mk_env fs vs) fs vs (flat_map said_of ev)).
Proof. exact any_read. Qed.
Print Assumptions C83_read.

(** The predicate of the optional field answers against its text. *)
Example C83_case : hands_over moody /\
  let '(o, _, ev) := urun moody (u_struct_cast le64 verified_len) ([2; 0; 8; 9], [true]) in
  o = Ok [VZ 2; VZ 0; VSome (VSeq [VZ 8; VZ 9])] /\ bit0 [VZ 0] = false /\
  flat_map said_of ev = [SRead 1; SRead 1; STest bit0 [VZ 0] true; SMem 2; SRead 2].
Proof.
  split; [|vm_compute; auto 6].
  intros [l script] n bs s'. simpl. unfold list_read.
  destruct (Z.leb_spec n (Z.of_nat (length l))); simpl; intros R; inversion R; subst. split.
  - rewrite map_length, firstn_length. lia.
  - apply Forall_forall. intros x Hx. apply in_map_iff in Hx. destruct Hx as (y & <- & _).
    apply Z.mod_pos_bound. lia.
Qed.

(** ** C84: writing, whatever user code does.  It can stop a write, but not change what
    is written. *)
Theorem C84_write : forall c fs vs H s o s' ev,
  wf fs = true -> typed fs = true -> has_fields fs vs ->
  urun H (u_stream_cast c fs vs) s = (o, s', ev) ->
  o <> Stuck /\ (plain_fields fs = true -> o <> UB) /\
  (exists rest, calls_fields c fs (emitted c fs vs) = map fst (flat_map io_write ev) ++ rest) /\
  (o = Ok tt -> map fst (flat_map io_write ev) = calls_fields c fs (emitted c fs vs)).
Proof. exact any_write. Qed.
Print Assumptions C84_write.

Example C84_case : has_fields frame frame_val /\
  (let '(o, (out, _), _) := urun moody (u_stream_cast le64 frame frame_val) ([], [true; true; true]) in
   o = Ok tt /\ out = frame_le) /\
  (let '(o, (out, _), _) := urun moody (u_stream_cast le64 frame frame_val) ([], [true; false]) in
   o = Err (ValidationFailure, "zs"%string) /\ out = firstn 12 frame_le).
Proof. split; [exact frame_has|]. vm_compute. auto. Qed.

(** The predicate of an optional container is called for the length field and again for
    the container.  If it changes its mind, the write succeeds and its length field does
    not count the elements; what it wrote cannot be read back. *)
Theorem C84_refuted : exists fs vs H s s' ev out,
  wf fs = true /\ typed fs = true /\ has_fields fs vs /\
  urun H (u_stream_cast le64 fs vs) s = (Ok tt, s', ev) /\
  out = concat (map fst (flat_map io_write ev)) /\
  vs = [VZ 5; VZ 1; VSome (VSeq [VZ 8; VZ 9])] /\ out = [5; 1; 8; 9] /\
  wmem (stream_cast le64 fs vs) = (Err (FoundContradictingLength, "n"%string), []) /\
  fst (rmem (struct_cast le64 fs) out) = Err (BufferExhaustion, "xs"%string).
Proof.
  exists verified_len, [VZ 5; VZ 1; VSome (VSeq [VZ 8; VZ 9])], moody, ([], [false; true]),
    ([5; 1; 8; 9], []),
    [OnTest bit0 [VZ 1] (Some false); OnWrite [5] (Some true); OnWrite [1] (Some true);
     OnTest bit0 [VZ 1] (Some true); OnWrite [8; 9] (Some true)], [5; 1; 8; 9].
  split; [reflexivity|]. split; [reflexivity|]. split; [has_it|].
  repeat split; vm_compute; reflexivity.
Qed.
Print Assumptions C84_refuted.
