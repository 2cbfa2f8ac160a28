(** * Optional fields over a base with a constraint

    [maybe_field<base, parse_if<...>>] (include/field/field.hpp:68-76) with a base that has a
    constraint; the [maybe] alias does not admit one (C54).  [mb_struct_cast],
    [mb_stream_cast]: [struct_cast] and [stream_cast] of such schemas (MaybeBase.v), in which
    the constraint beside an optional field is its base's.  [relaxed], [payloads], [kept]:
    MaybeBaseSpec.v.  [senseless k v]: asking [k] of [v] is undefined (RUndef.v).
    [constr_ok]: the constraint compiles (Typing.v). *)
From Verif Require Import Read Write Spec WSpec PropDefs Typing Streams Examples RUndef.
From Verif Require Import RTrip RTrip2 Rewrite ReadFacts MaybeBase MaybeBaseSpec MaybeBaseFacts.
Local Open Scope string_scope.
Local Open Scope list_scope.
Local Open Scope Z_scope.

(** ** C108: reading never asks a base's constraint: it is the read of the relaxed schema,
    on any stream and with any allocator. *)
Theorem C108_read : forall c fs S alloc s,
  rrun S alloc (mb_struct_cast c fs) s = rrun S alloc (struct_cast c (relaxed fs)) s.
Proof. exact mb_reads_all. Qed.
Print Assumptions C108_read.

(** Writing does.  A struct that keeps them is written as by the relaxed schema, on any
    stream. *)
Theorem C108_write : forall c fs vs, wf (relaxed fs) = true -> typed (relaxed fs) = true ->
  kept fs vs ->
  forall S s, wrun S (mb_stream_cast c fs vs) s = wrun S (stream_cast c (relaxed fs) vs) s.
Proof. exact kept_run. Qed.
Print Assumptions C108_write.

(** What is written is what the relaxed schema writes of structs that keep them, and no
    more. *)
Theorem C108_exact : forall c fs vs out, wf (relaxed fs) = true -> typed (relaxed fs) = true ->
  (wmem (mb_stream_cast c fs vs) = (Ok tt, out) <->
   kept fs vs /\ wmem (stream_cast c (relaxed fs) vs) = (Ok tt, out)).
Proof. exact mb_done. Qed.
Print Assumptions C108_exact.

(** A struct that does not keep them fails to validate, part of its bytes written. *)
Theorem C108_stops : forall c fs vs out,
  wf (relaxed fs) = true -> typed (relaxed fs) = true -> has_fields fs vs ->
  payloads (fun b k v => constr_ok b k = true /\ ~ senseless k v) fs vs ->
  wmem (stream_cast c (relaxed fs) vs) = (Ok tt, out) -> ~ kept fs vs ->
  exists id o more,
    wmem (mb_stream_cast c fs vs) = (Err (ValidationFailure, id), o) /\ out = o ++ more.
Proof. exact mb_stopped. Qed.
Print Assumptions C108_stops.

(** The first optional field of the struct that does not is the one named, and the fields
    before it are out. *)
Theorem C108_first : forall c fs vs pre id b p ids k v out,
  wf (relaxed fs) = true -> typed (relaxed fs) = true -> has_fields fs vs ->
  field_at fs vs pre id (FMaybe b p ids) k (VSome v) -> constr_ok b k = true -> ~ senseless k v ->
  kept pre (firstn (f_len pre) vs) -> ~ holds k v ->
  wmem (stream_cast c (relaxed fs) vs) = (Ok tt, out) ->
  wmem (mb_stream_cast c fs vs) =
    (Err (ValidationFailure, id), bytes_before c (relaxed pre) (emitted c (relaxed fs) vs)).
Proof. exact mb_first. Qed.
Print Assumptions C108_first.

(** What was written reads back. *)
Theorem C108_back : forall c fs vs out rest,
  wf (relaxed fs) = true -> typed (relaxed fs) = true -> has_fields fs vs ->
  clean_fields c (relaxed fs) = true -> in_sync c (relaxed fs) vs ->
  sized_fields c (relaxed fs) (emitted c (relaxed fs) vs) ->
  wmem (mb_stream_cast c fs vs) = (Ok tt, out) ->
  rmem (mb_struct_cast c fs) (out ++ rest) = (Ok (emitted c (relaxed fs) vs), rest).
Proof. exact mb_back. Qed.
Print Assumptions C108_back.

(** The other way round it is not so: a message that is read, and read whole, whose struct
    is refused. *)
Definition seven (k : constr) : fields :=
  FCons "flag" (FFixed (TScalar u8) 1) CNone
  (FCons "x" (FMaybe (FFixed (TScalar u16) 2)
     (fun vs => match vs with [VZ z] => negb (z =? 0) | _ => false end) ["flag"]) k
  (FCons "y" (FFixed (TScalar u8) 1) CNone FNil)).

Theorem C108_refuted : exists c fs bs vs,
  wf (relaxed fs) = true /\ typed (relaxed fs) = true /\
  rmem (mb_struct_cast c fs) bs = (Ok vs, []) /\
  wmem (stream_cast c (relaxed fs) vs) = (Ok tt, bs) /\
  wmem (mb_stream_cast c fs vs) = (Err (ValidationFailure, "x"), [1]).
Proof.
  exists le64, (seven (CCmp OEq u16 7)), [1; 5; 0; 9], [VZ 1; VSome (VZ 5); VZ 9].
  repeat split; vm_compute; reflexivity.
Qed.
Print Assumptions C108_refuted.

Example C108_case : let fs := seven (CCmp OEq u16 7) in
  wf (relaxed fs) = true /\ typed (relaxed fs) = true /\
  kept fs [VZ 1; VSome (VZ 7); VZ 9] /\
  wmem (mb_stream_cast le64 fs [VZ 1; VSome (VZ 7); VZ 9]) = (Ok tt, [1; 7; 0; 9]) /\
  wmem (mb_stream_cast le64 fs [VZ 0; VNone; VZ 9]) = (Ok tt, [0; 9]) /\
  rmem (mb_struct_cast le64 fs) [1; 5; 0; 9] = (Ok [VZ 1; VSome (VZ 5); VZ 9], []).
Proof.
  cbv zeta. split; [reflexivity|]. split; [reflexivity|]. split.
  - split; [exact I|]. split; [|split; exact I]. split; [|exact I]. apply check_holds; reflexivity.
  - repeat split; vm_compute; reflexivity.
Qed.

(** One of the records in a vector does not keep its constraint. *)
Example C108_stops_case : let fs :=
  FCons "n" (FFixed (TScalar u8) 1) CNone
  (FCons "rs" (FVecRec (seven (CCmp OEq u16 7)) 8 (LenField "n") None) CNone FNil) in
  let vs := [VZ 0; VSeq [VRec [VZ 1; VSome (VZ 7); VZ 9]; VRec [VZ 0; VNone; VZ 4]; VRec [VZ 1; VSome (VZ 6); VZ 9]]] in
  wf (relaxed fs) = true /\ typed (relaxed fs) = true /\
  payloads (fun b k v => constr_ok b k = true) fs vs /\
  wmem (stream_cast le64 (relaxed fs) vs) = (Ok tt, [3; 1; 7; 0; 9; 0; 4; 1; 6; 0; 9]) /\
  wmem (mb_stream_cast le64 fs vs) = (Err (ValidationFailure, "rs"), [3; 1; 7; 0; 9; 0; 4; 1]).
Proof.
  cbv zeta. split; [reflexivity|]. split; [reflexivity|]. split.
  - cbn. repeat constructor.
  - split; vm_compute; reflexivity.
Qed.
