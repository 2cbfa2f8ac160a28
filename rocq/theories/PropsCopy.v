(** * C112: the copies the reader makes *)
From Verif Require Import PropDefs Examples CopySpec Copies CopyFacts.
Local Open Scope string_scope.
Local Open Scope list_scope.
Local Open Scope Z_scope.

(** ** C112: copies change neither the result nor the requests made of the stream.  They
    ask the allocator again for blocks that have been granted before, and the total is
    known from the value. *)

(** On a byte sequence with memory to spare, the result and the bytes left are those of
    the reader of Read.v. *)
Theorem C112_same : forall c fs bs, wf fs = true ->
  rmem (cp_struct_cast c fs) bs = rmem (struct_cast c fs) bs.
Proof. exact copies_same. Qed.
Print Assumptions C112_same.

(** On any stream, with any allocator: as with memory to spare and no copies, or
    [bad_alloc] on the way there. *)
Theorem C112_run : forall c fs S, wf fs = true -> forall L s a o s1 ev o2 s2 ev2,
  rrun S granting (struct_cast c fs) s = (o, s1, ev) ->
  arun S L (cp_struct_cast c fs) s a = (o2, s2, ev2) ->
  o2 = Throw /\ (exists l, reads_of ev = reads_of ev2 ++ l) \/
  o2 = o /\ s2 = s1 /\ reads_of ev2 = reads_of ev.
Proof. exact copies_run. Qed.
Print Assumptions C112_run.

(** [bad_alloc] is the end: the refused request is the last thing that happens. *)
Theorem C112_refused_last : forall c fs S L s a s1 ev,
  arun S L (cp_struct_cast c fs) s a = (Throw, s1, ev) -> exists before n, ev = before ++ [EvAlloc n].
Proof. intros c fs S L. exact (refused_last S L (cp_struct_cast c fs)). Qed.
Print Assumptions C112_refused_last.

(** An allocator that never refuses: never [bad_alloc]. *)
Theorem C112_granted : forall c fs S, wf fs = true -> forall s, exists o s1 ev ev2,
  rrun S granting (struct_cast c fs) s = (o, s1, ev) /\
  rrun S granting (cp_struct_cast c fs) s = (o, s1, ev2) /\ o <> Throw.
Proof. exact copies_granted. Qed.
Print Assumptions C112_granted.

(** No block is larger than one a container was resized to: the ceilings hold for the
    copies too. *)
Theorem C112_sizes : forall c fs S, wf fs = true -> forall L s a o s1 ev o2 s2 ev2,
  rrun S granting (struct_cast c fs) s = (o, s1, ev) ->
  arun S L (cp_struct_cast c fs) s a = (o2, s2, ev2) ->
  forall n, In n (blocks_of ev2) -> In n (blocks_of ev).
Proof. exact copies_sizes. Qed.
Print Assumptions C112_sizes.

(** A value that has been read owns the blocks its containers were resized to: copying it
    asks for these, in the same order. *)
Theorem C112_blocks : forall c fs S, wf fs = true -> forall s vs s1 ev,
  rrun S granting (struct_cast c fs) s = (Ok vs, s1, ev) ->
  blocks_of ev = heap_fields fs vs.
Proof. exact copies_blocks. Qed.
Print Assumptions C112_blocks.

(** The last thing a cast does is to ask for all blocks once more, in their order. *)
Theorem C112_last : forall c fs S s vs s1 ev s2 ev2, wf fs = true ->
  rrun S granting (struct_cast c fs) s = (Ok vs, s1, ev) ->
  rrun S granting (cp_struct_cast c fs) s = (Ok vs, s2, ev2) ->
  exists before, ev2 = before ++ map EvAlloc (blocks_of ev).
Proof. exact copies_last. Qed.
Print Assumptions C112_last.

(** The total of a read that succeeds. *)
Theorem C112_paid : forall c fs S, wf fs = true -> forall L s a vs s1 ev,
  arun S L (cp_struct_cast c fs) s a = (Ok vs, s1, ev) ->
  allocated ev = paid_fields 1 fs vs.
Proof. exact copies_paid. Qed.
Print Assumptions C112_paid.

(** At least twice what the containers need. *)
Theorem C112_twice : forall c fs S, wf fs = true -> forall s vs s1 ev ev2,
  rrun S granting (struct_cast c fs) s = (Ok vs, s1, ev) ->
  rrun S granting (cp_struct_cast c fs) s = (Ok vs, s1, ev2) ->
  2 * allocated ev <= allocated ev2.
Proof. exact copies_twice. Qed.
Print Assumptions C112_twice.

(** The total of any read, successful or not, is bounded by the schema. *)
Theorem C112_bound : forall c fs S, wf fs = true -> forall L s a o s1 ev,
  arun S L (cp_struct_cast c fs) s a = (o, s1, ev) ->
  allocated ev <= (1 + times_fields fs) * total_fields c (own_memory c) fs.
Proof. exact copies_bound. Qed.
Print Assumptions C112_bound.

(** From a fixed supply: a message that can be read is read if and only if the supply is
    at least its total. *)
Theorem C112_supply : forall c fs S s vs s1 ev b, wf fs = true -> 0 <= b ->
  rrun S granting (struct_cast c fs) s = (Ok vs, s1, ev) ->
  fst (fst (arun S supply (cp_struct_cast c fs) s b)) =
    if paid_fields 1 fs vs <=? b then Ok vs else Throw.
Proof. exact copies_supply. Qed.
Print Assumptions C112_supply.

(** A supply with which nothing is ever refused. *)
Theorem C112_enough : forall c fs S s b, wf fs = true ->
  (1 + times_fields fs) * total_fields c (own_memory c) fs <= b ->
  forall o s1 ev, rrun S granting (struct_cast c fs) s = (o, s1, ev) ->
  fst (arun S supply (cp_struct_cast c fs) s b) = (o, s1).
Proof. exact copies_enough. Qed.
Print Assumptions C112_enough.

(** An allocator that decides by the size alone is that of the other theorems. *)
Theorem C112_stateless : forall S alloc E A (p : rprog E A) s,
  arun S (stateless alloc) p s tt = rrun S alloc p s.
Proof. intros S alloc E A p s. exact (stateless_run S alloc p s). Qed.
Print Assumptions C112_stateless.

(** A string of up to 4 bytes; the same in an optional; in a record; in a vector of
    records, 2 bytes each; in a variant. *)
Definition cp_str : fty := FVar (TScalar u8) (LenField "n") (Some 4).
Definition cp_rec : fields := FCons "n" (fixed u8) CNone (FCons "s" cp_str CNone FNil).
Definition cp_all : fields :=
  FCons "n" (fixed u8) CNone
 (FCons "plain" cp_str CNone
 (FCons "opt" (FMaybe cp_str (fun _ => true) []) CNone
 (FCons "rec" (FStruct cp_rec) CNone
 (FCons "vec" (FVecRec cp_rec 2 (LenField "n") (Some 8)) CNone
 (FCons "var" (FUnion (GField "n" u8 [(u8, 2)]) (ACons cp_str CNone ANil)) CNone FNil))))).
Definition cp_bytes : list Z := [2; 1; 2; 3; 4; 2; 5; 6; 1; 7; 3; 8; 9; 10; 11; 12].
Definition cp_value : list val :=
  [VZ 2; VSeq [VZ 1; VZ 2]; VSome (VSeq [VZ 3; VZ 4]); VRec [VZ 2; VSeq [VZ 5; VZ 6]];
   VSeq [VRec [VZ 1; VSeq [VZ 7]]; VRec [VZ 3; VSeq [VZ 8; VZ 9; VZ 10]]];
   VAlt 0 (VSeq [VZ 11; VZ 12])].

(** Resizes: 2, 2, 2, 4 + 1 + 3, 2: 16 in all.  Asked for, copies included:
    2*2, 3*2, 4*2, 2*4 + 4*1 + 4*3, 2*2: 46. *)
Example C112_case : wf cp_all = true /\
  rrun list_stream granting (struct_cast le64 cp_all) cp_bytes =
    (Ok cp_value, [], snd (rrun list_stream granting (struct_cast le64 cp_all) cp_bytes)) /\
  blocks_of (snd (rrun list_stream granting (struct_cast le64 cp_all) cp_bytes)) = [2; 2; 2; 4; 1; 3; 2] /\
  blocks_of (snd (rrun list_stream granting (cp_struct_cast le64 cp_all) cp_bytes)) =
    [2; 2; 2; 2; 2; 2; 4; 1; 1; 1; 3; 3; 3; 2] ++ [2; 2; 2; 4; 1; 3; 2] /\
  paid_fields 1 cp_all cp_value = 46 /\
  times_fields cp_all = 3 /\ total_fields le64 (own_memory le64) cp_all = 40 /\
  fst (fst (arun list_stream supply (cp_struct_cast le64 cp_all) cp_bytes 46)) = Ok cp_value /\
  fst (fst (arun list_stream supply (cp_struct_cast le64 cp_all) cp_bytes 45)) = Throw.
Proof. vm_compute. repeat split; reflexivity. Qed.

(** The bound is reached: a record with a string of 4 bytes in a record. *)
Example C112_bound_reached :
  let fs := FCons "o" (FStruct (FCons "i" (FStruct cp_rec) CNone FNil)) CNone FNil in
  let ev := snd (rrun list_stream granting (cp_struct_cast le64 fs) [4; 1; 2; 3; 4]) in
  wf fs = true /\ times_fields fs = 5 /\ total_fields le64 (own_memory le64) fs = 4 /\
  allocated ev = 24.
Proof. vm_compute. repeat split; reflexivity. Qed.

(** A vector that does not fit under its ceiling is refused without a request. *)
Example C112_refused :
  fst (arun list_stream supply (cp_struct_cast le64 cp_rec) [9; 1; 2; 3] 100) = (Err (ExcessiveLength, "s"), [1; 2; 3]).
Proof. vm_compute. reflexivity. Qed.
