(** * C93: fields put into a record of their own *)
From Verif Require Import GroupSpec GroupFacts Typing Examples.
Import ListNotations.

(** Reading: the same calls of the stream and of the allocator, the same bytes taken, and
    the same values, the fields put together in the record's place.  An error in one of
    them is reported under the record's name. *)
Theorem C93_read : forall c pre gs post id S alloc s,
  wf (f_app pre (FCons id (FStruct gs) CNone post)) = true ->
  wf (f_app pre (f_app gs post)) = true -> ~ In id (f_ids gs) ->
  rrun S alloc (struct_cast c (f_app pre (FCons id (FStruct gs) CNone post))) s =
  let '(o, s', ev) := rrun S alloc (struct_cast c (f_app pre (f_app gs post))) s in
  (grouped_outcome (grouped (f_len pre) (f_len gs)) (f_ids gs) id o, s', ev).
Proof. exact group_read'. Qed.
Print Assumptions C93_read.

(** Writing: the same chunks to the same stream. *)
Theorem C93_write : forall c pre gs post id vs S s,
  wf (f_app pre (FCons id (FStruct gs) CNone post)) = true ->
  wf (f_app pre (f_app gs post)) = true -> ~ In id (f_ids gs) ->
  has_fields (f_app pre (f_app gs post)) vs ->
  wrun S (stream_cast c (f_app pre (FCons id (FStruct gs) CNone post))
            (grouped (f_len pre) (f_len gs) vs)) s =
  let '(o, s', ch) := wrun S (stream_cast c (f_app pre (f_app gs post)) vs) s in
  (grouped_outcome (fun a => a) (f_ids gs) id o, s', ch).
Proof. exact group_write. Qed.
Print Assumptions C93_write.

(** A length used behind the record, a length and an optional within it. *)
Definition gr_a : fields := FCons "k" (fixed u8) CNone (FCons "pin" (fixed u8) (CCmp OEq i32 5) FNil).
Definition gr_b : fields :=
  FCons "n" (fixed u8) CNone (FCons "xs" (FVar (TScalar u16) (LenField "n") None) CNone
  (FCons "q" (FMaybe (fixed u8) bit0 ["n"]) CNone FNil)).
Definition gr_c : fields := FCons "ys" (FVar (TScalar u8) (LenField "k") None) CNone FNil.
Definition gr_vals : list val :=
  [VZ 0; VZ 0; VZ 0; VSeq [VZ 7]; VNone; VSeq [VZ 1; VZ 2]].

Example C93_case :
  wf (f_app gr_a (FCons "rec" (FStruct gr_b) CNone gr_c)) = true /\
  wf (f_app gr_a (f_app gr_b gr_c)) = true /\ ~ In "rec" (f_ids gr_b) /\
  has_fields (f_app gr_a (f_app gr_b gr_c)) gr_vals /\
  grouped (f_len gr_a) (f_len gr_b) gr_vals =
    [VZ 0; VZ 0; VRec [VZ 0; VSeq [VZ 7]; VNone]; VSeq [VZ 1; VZ 2]] /\
  rmem (struct_cast le64 (f_app gr_a (f_app gr_b gr_c))) [2; 5; 0; 1; 2] =
    (Ok [VZ 2; VZ 5; VZ 0; VSeq []; VNone; VSeq [VZ 1; VZ 2]], []) /\
  rmem (struct_cast le64 (f_app gr_a (FCons "rec" (FStruct gr_b) CNone gr_c))) [2; 5; 0; 1; 2] =
    (Ok [VZ 2; VZ 5; VRec [VZ 0; VSeq []; VNone]; VSeq [VZ 1; VZ 2]], []).
Proof.
  split; [vm_compute; reflexivity|]. split; [vm_compute; reflexivity|].
  split; [simpl; intuition discriminate|]. split; [has_it|].
  repeat split; vm_compute; reflexivity.
Qed.

(** An absent field behind the record keeps its name, one within it loses its own. *)
Example C93_blame :
  fst (rmem (struct_cast le64 (f_app gr_a (FCons "rec" (FStruct gr_b) CNone gr_c))) [2; 5; 1; 1])
    = Err (BufferExhaustion, "rec") /\
  fst (rmem (struct_cast le64 (f_app gr_a (f_app gr_b gr_c))) [2; 5; 1; 1])
    = Err (BufferExhaustion, "xs").
Proof. split; vm_compute; reflexivity. Qed.
