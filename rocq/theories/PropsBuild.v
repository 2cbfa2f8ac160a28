(** * C85: programs that make structs with [operator[]] *)
From Coq Require Import Lia.
From Verif Require Import BuildSpec BuildFacts Examples ExactFacts.
Import ListNotations.

(** A fresh struct is value-initialised. *)
Theorem C85_fresh : forall fs vs, wf fs = true -> inhabited_fields fs = true ->
  (fresh fs vs <-> zero_fields fs vs).
Proof. exact fresh_zero. Qed.
Print Assumptions C85_fresh.

Definition every_kind : fields :=
  FCons "t" (FFixed (TArr 2 (TFloat 4)) 8) CNone (FCons "name" (FFixed (TFixStr 3) 4) CNone packet).

Example C85_fresh_case : wf every_kind = true /\ inhabited_fields every_kind = true /\
  zero_fields every_kind
    [VSeq [VF 4 0; VF 4 0]; VSeq [VZ 0; VZ 0; VZ 0; VZ 0]; VZ 0; VZ 0; VZ 0; VSeq [];
     VSeq [VSeq [VZ 0; VZ 0]; VSeq [VZ 0; VZ 0]]; VNone; VZ 0; VAlt 0 (VZ 0);
     VSeq [VRec [VZ 0; VZ 0]; VRec [VZ 0; VZ 0]]; VSeq []].
Proof. split; [reflexivity|]. split; [reflexivity|]. apply C85_fresh; reflexivity. Qed.

(** Whatever a program makes of fresh structs and of structs that were read has values
    of the schema's types: what is proved of writing such structs applies to it. *)
Theorem C85_types : forall c fs vs, inhabited_fields fs = true ->
  made (fresh_or_read c) fs vs -> has_fields fs vs.
Proof. exact made_has. Qed.
Print Assumptions C85_types.

(** It has no way to the slots that the writer overwrites. *)
Theorem C85_keeps : forall (start : fields -> list val -> Prop) fs vs,
  wf fs = true -> typed fs = true ->
  (f_len fs <= 256)%nat -> (length (lengths fs) <= 64)%nat -> (length (discriminants fs) <= 64)%nat ->
  ~ In String.EmptyString (f_ids fs) -> made start fs vs ->
  exists vs0, start fs vs0 /\
    forall id t k, field_of fs id = Some (t, k) -> overwritten fs id t k = true ->
      lookup (mk_env fs vs) id = lookup (mk_env fs vs0) id.
Proof. exact made_keeps. Qed.
Print Assumptions C85_keeps.

(** And needs none: any struct that can be written can be written by starting from a
    fresh one and assigning fields. *)
Theorem C85_enough : forall c fs vs, wf fs = true -> typed fs = true -> steady fs = true ->
  free_fields fs = true -> within_tables fs -> has_fields fs vs ->
  exists ws, made fresh fs ws /\ stream_cast c fs ws = stream_cast c fs vs.
Proof. exact made_writes. Qed.
Print Assumptions C85_enough.

(** In particular every message of the schema can be produced. *)
Theorem C85_messages : forall c fs vs, wf fs = true -> typed fs = true -> steady fs = true ->
  free_fields fs = true -> reversible c fs = true -> within_tables fs -> valid c fs vs ->
  exists ws, made fresh fs ws /\
    wmem (stream_cast c fs ws) = (Ok tt, enc_fields (c_wire c) fs vs).
Proof. exact made_valid. Qed.
Print Assumptions C85_messages.

(** Change one field, write, read again: that field has its new value and every other
    assignable field its old one, up to slots of nested records that are overwritten. *)
Theorem C85_edit : forall c fs vs id t k v out,
  wf fs = true -> typed fs = true -> clean_fields c fs = true -> steady fs = true ->
  free_fields fs = true -> within_tables fs -> has_fields fs vs ->
  op_index false fs id = MutableRef -> field_of fs id = Some (t, k) -> has_ty t v ->
  sized_fields c fs (emitted c fs (assign fs vs id v)) ->
  wmem (stream_cast c fs (assign fs vs id v)) = (Ok tt, out) ->
  exists ws, rmem (struct_cast c fs) out = (Ok ws, []) /\
    (exists w, lookup (mk_env fs ws) id = Some w /\ same_assignable_ty t v w) /\
    forall id' t' k', id' <> id -> op_index false fs id' = MutableRef ->
      field_of fs id' = Some (t', k') ->
      exists w w', lookup (mk_env fs vs) id' = Some w /\ lookup (mk_env fs ws) id' = Some w' /\
        same_assignable_ty t' w w'.
Proof. exact edit. Qed.
Print Assumptions C85_edit.

Example C85_case : inhabited_fields frame = true /\ steady frame = true /\ free_fields frame = true /\
  reversible le64 frame = true /\ within_tables frame /\
  op_index false frame "xs" = MutableRef /\ op_index false frame "n" = NoOverload /\
  op_index false frame "sel" = ConstRef.
Proof.
  do 4 (split; [reflexivity|]). split; [|repeat split; vm_compute; reflexivity].
  intros gs H. simpl in H. repeat (destruct H as [<-|H]); try tauto; vm_compute;
    (split; [lia|split; [lia|split; [lia|]]]); intros K; repeat (destruct K as [K|K]); try discriminate; auto.
Qed.

(** A log record read from the wire whose payload is replaced; the length follows. *)
Definition log : fields :=
  FCons "n" (fixed u8) CNone (FCons "text" (FVar (TScalar u8) (LenField "n") None) CNone
  (FCons "prio" (fixed u8) CNone FNil)).

Example C85_edit_case :
  rmem (struct_cast le64 log) [3; 97; 98; 99; 7] = (Ok [VZ 3; VSeq [VZ 97; VZ 98; VZ 99]; VZ 7], []) /\
  op_index false log "text" = MutableRef /\ clean_fields le64 log = true /\
  let ws := assign log [VZ 3; VSeq [VZ 97; VZ 98; VZ 99]; VZ 7] "text" (VSeq [VZ 120]) in
  sized_fields le64 log (emitted le64 log ws) /\
  wmem (stream_cast le64 log ws) = (Ok tt, [1; 120; 7]) /\
  rmem (struct_cast le64 log) [1; 120; 7] = (Ok [VZ 1; VSeq [VZ 120]; VZ 7], []).
Proof.
  do 3 (split; [vm_compute; reflexivity|]).
  split; [vm_compute; repeat split; repeat constructor; discriminate|split; vm_compute; reflexivity].
Qed.

Example C85_made_case : made fresh log [VZ 0; VSeq [VZ 120; VZ 121]; VZ 5].
Proof.
  change (made fresh log (assign log (assign log (default_fields log) "prio" (VZ 5)) "text" (VSeq [VZ 120; VZ 121]))).
  eapply made_assign; [eapply made_assign; [apply made_start; reflexivity|..]|..];
    try (vm_compute; reflexivity); repeat constructor.
Qed.

(** A predicate that reads a length: the message [1; 7; 9] can be read, but no program
    can write it, because the predicate sees the slot of the length, which stays 0. *)
Theorem C85_refuted : exists fs vs, wf fs = true /\ typed fs = true /\ reversible le64 fs = true /\
  rmem (struct_cast le64 fs) [1; 7; 9] = (Ok vs, []) /\
  forall ws, made fresh fs ws -> wmem (stream_cast le64 fs ws) <> (Ok tt, [1; 7; 9]).
Proof.
  exists stale, [VZ 1; VSeq [VZ 7]; VSome (VZ 9)]. do 4 (split; [vm_compute; reflexivity|]).
  intros ws Hm E.
  assert (Hh : has_fields stale ws).
  { refine (made_has_types fresh _ stale ws Hm eq_refl). intros gs vs -> Hi. apply default_has. auto. }
  destruct (made_keeps fresh stale ws) as (vs0 & -> & Hk); auto; try (vm_compute; lia).
  { vm_compute. intros K. repeat (destruct K as [K|K]); try discriminate; auto. }
  apply write_ok_iff in E; [|reflexivity|reflexivity|exact Hh]. destruct E as [Ew Eo].
  destruct ws as [|x [|y [|o [|]]]]; try (simpl in Hh; tauto).
  specialize (Hk "n"%string _ _ eq_refl eq_refl). injection Hk as ->.
  destruct Ew as (_ & _ & (_ & args & Ha & Ew) & _). injection Ha as <-. simpl in Ew. subst o.
  destruct Hh as (_ & Hy & _). destruct y as [|l| | | | |]; try (simpl in Hy; tauto).
  assert (L : length l = 2%nat).
  { apply (f_equal (@length Z)) in Eo. simpl in Eo. rewrite app_nil_r in Eo.
    simpl in Hy. clear - Hy Eo. assert (G : length (flat_map (enc_ct Little (TScalar u8)) l) = length l).
    { clear Eo. induction Hy as [|z l Hz Hy IH]; [auto|].
      cbn [flat_map length]. rewrite app_length, IH. destruct z; try (simpl in Hz; tauto). }
    simpl in G. lia. }
  destruct l as [|a [|b [|]]]; simpl in L; try lia. clear - Eo. vm_compute in Eo. discriminate.
Qed.
Print Assumptions C85_refuted.

(** docs/schema/optional-and-variant.md says that an alternative that is a vector of
    records cannot be written, its length being neither derived nor assignable.  It is
    assignable, and the struct is written and read back. *)
Definition rec_alt : fields :=
  FCons "n" (fixed u8) CNone (FCons "tag" (fixed u8) CNone
  (FCons "body" (FUnion (GField "tag" u8 [(i32, 1); (i32, 2)])
     (ACons (fixed u16) CNone (ACons (FVecRec point 4 (LenField "n") None) CNone ANil))) CNone FNil)).

Theorem C85_records_refuted : exists ws, made fresh rec_alt ws /\
  op_index false rec_alt "n" = MutableRef /\
  wmem (stream_cast le64 rec_alt ws) = (Ok tt, [2; 2; 1; 0; 3; 254; 255; 4]) /\
  rmem (struct_cast le64 rec_alt) [2; 2; 1; 0; 3; 254; 255; 4] =
    (Ok [VZ 2; VZ 2; VAlt 1 (VSeq [pt 1 3; pt (-2) 4])], []).
Proof.
  assert (Hp : forall x y, ct_ok (TScalar i16) (VZ x) -> ct_ok (TScalar i8) (VZ y) ->
    made fresh point [VZ x; VZ y]).
  { intros x y Hx Hy.
    change (made fresh point (assign point (assign point (default_fields point) "x" (VZ x)) "y" (VZ y))).
    eapply made_assign; [eapply made_assign; [apply made_start; reflexivity|..]|..];
      try (vm_compute; reflexivity); constructor; auto. }
  exists (assign rec_alt (assign rec_alt (default_fields rec_alt) "n" (VZ 2)) "body"
            (VAlt 1 (VSeq [pt 1 3; pt (-2) 4]))).
  split.
  - eapply made_assign; [eapply made_assign; [apply made_start; reflexivity|..]|..];
      try (vm_compute; reflexivity); [constructor; reflexivity|].
    eapply made_alt; [reflexivity|]. constructor.
    repeat (constructor; [apply Hp; vm_compute; reflexivity|]). constructor.
  - repeat split; vm_compute; reflexivity.
Qed.
Print Assumptions C85_records_refuted.
