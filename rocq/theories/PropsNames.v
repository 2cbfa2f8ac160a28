(** * C109: names as they are written *)
From Coq Require Import String Ascii.
From Verif Require Import Names NamesSpec NamesFacts Examples.
Import ListNotations.
Local Open Scope list_scope.

(** A name is what is written of it before the first NUL. *)
Theorem C109_name : forall s p, as_sv s = p <->
  ~ has_nul p /\ (s = p \/ exists rest, s = append p (String zero rest)).
Proof. exact as_sv_iff. Qed.
Print Assumptions C109_name.

(** So where no name has a NUL nothing changes, and the other theorems are about the
    schema as it is written. *)
Theorem C109_plain : forall fs, no_name has_nul fs -> seen_as fs = fs.
Proof. exact seen_plain. Qed.
Print Assumptions C109_plain.

(** Otherwise, and for any renaming: where the different names of each list stay
    different, be it only those that occur, reading and writing change only the name in an
    error (stronger than C77, whose renamings are one-to-one on all names). *)
Theorem C109_renamed_read : forall c r fs S alloc s, keeps_apart r fs ->
  rrun S alloc (struct_cast c (map_fields r fs)) s =
  let '(o, s', ev) := rrun S alloc (struct_cast c fs) s in (ren_outcome r o, s', ev).
Proof. exact mapped_read. Qed.
Print Assumptions C109_renamed_read.

Theorem C109_renamed_write : forall c r fs vs S s, keeps_apart r fs ->
  wrun S (stream_cast c (map_fields r fs) vs) s =
  let '(o, s', ch) := wrun S (stream_cast c fs vs) s in (ren_outcome r o, s', ch).
Proof. exact mapped_write. Qed.
Print Assumptions C109_renamed_write.

(** The renamed schema is accepted exactly when the first is, names being neither empty
    nor becoming so. *)
Theorem C109_renamed_accepted : forall r szw fs, keeps_apart r fs ->
  no_name (fun x => x = EmptyString) fs -> no_name (fun x => r x = EmptyString) fs ->
  accepted szw (map_fields r fs) = accepted szw fs.
Proof. exact mapped_accepted. Qed.
Print Assumptions C109_renamed_accepted.

(** And [operator[]] with the new name does what it did with the old. *)
Theorem C109_renamed_index : forall r b fs name, apart_on r (name :: names fs) ->
  NoDup (f_ids fs) -> name <> EmptyString -> r name <> EmptyString ->
  op_index b (map_fields r fs) (r name) = op_index b fs name.
Proof. exact mapped_index. Qed.
Print Assumptions C109_renamed_index.

(** In particular for what the library makes of the names. *)
Theorem C109_read : forall c fs S alloc s, keeps_apart as_sv fs ->
  rrun S alloc (written_read c fs) s =
  let '(o, s', ev) := rrun S alloc (struct_cast c fs) s in (ren_outcome as_sv o, s', ev).
Proof. intros c fs. exact (mapped_read c as_sv fs). Qed.
Print Assumptions C109_read.

Theorem C109_write : forall c fs vs S s, keeps_apart as_sv fs ->
  wrun S (written_write c fs vs) s =
  let '(o, s', ch) := wrun S (stream_cast c fs vs) s in (ren_outcome as_sv o, s', ch).
Proof. intros c fs. exact (mapped_write c as_sv fs). Qed.
Print Assumptions C109_write.

Theorem C109_accepted : forall szw fs, keeps_apart as_sv fs ->
  no_name (fun x => x = EmptyString) fs -> no_name (fun x => as_sv x = EmptyString) fs ->
  written_accepted szw fs = accepted szw fs.
Proof. exact (mapped_accepted as_sv). Qed.
Print Assumptions C109_accepted.

Theorem C109_index : forall b fs name, apart_on as_sv (name :: names fs) ->
  NoDup (f_ids fs) -> name <> EmptyString -> as_sv name <> EmptyString ->
  written_index b fs name = op_index b fs name.
Proof. exact (mapped_index as_sv). Qed.
Print Assumptions C109_index.

(** In a schema the library accepts, the declared names differ before their first NULs;
    and a lookup finds the field whose name agrees up to there. *)
Theorem C109_distinct : forall szw fs gs, written_accepted szw fs = true ->
  In gs (lists fs) -> NoDup (map as_sv (f_ids gs)).
Proof. exact seen_ids. Qed.
Print Assumptions C109_distinct.

Theorem C109_lookup : forall tid fs ft name x, field_table tid (seen_as fs) = Some ft ->
  NoDup (map as_sv (f_ids fs)) -> as_sv name <> EmptyString ->
  (map_get ft (as_sv name) = Some x <->
   exists i id, nth_error (f_ids fs) i = Some id /\ as_sv id = as_sv name /\ x = mkInfo (tid i) i).
Proof. exact seen_lookup. Qed.
Print Assumptions C109_lookup.

(** A list with a NUL in the name of its length. *)
Definition nul (a b : string) : string := append a (String zero b).

Definition cut_frame : fields :=
  FCons (nul "n" "x") (fixed u8) CNone (FCons "k" (fixed u8) (CCmp OLt i32 3)
  (FCons (nul "xs" "") (FVar (TScalar u8) (LenField (nul "n" "x")) None) CNone
  (FCons "row" (FStruct (FCons (nul "n" "y") (fixed u8) CNone FNil)) CNone FNil))).

Lemma two_sided r l : forallb (fun a => forallb (fun b =>
  negb (String.eqb (r a) (r b)) || String.eqb a b) l) l = true -> apart_on r l.
Proof.
  intros H a b Ha Hb E. rewrite forallb_forall in H. specialize (H a Ha).
  rewrite forallb_forall in H. specialize (H b Hb). rewrite E, String.eqb_refl in H.
  apply String.eqb_eq. exact H.
Qed.

Example C109_case : keeps_apart as_sv cut_frame /\
  no_name (fun x => x = EmptyString) cut_frame /\ no_name (fun x => as_sv x = EmptyString) cut_frame /\
  ~ no_name has_nul cut_frame /\
  written_accepted 8 cut_frame = true /\
  rmem (written_read le64 cut_frame) [2; 1; 5; 6; 9] = (Ok [VZ 2; VZ 1; VSeq [VZ 5; VZ 6]; VRec [VZ 9]], []) /\
  fst (rmem (written_read le64 cut_frame) [2; 1; 5]) = Err (BufferExhaustion, "xs") /\
  fst (rmem (struct_cast le64 cut_frame) [2; 1; 5]) = Err (BufferExhaustion, nul "xs" "") /\
  apart_on as_sv (nul "n" "x" :: names cut_frame) /\ NoDup (f_ids cut_frame) /\
  written_index false cut_frame (nul "n" "x") = NoOverload /\
  written_index false cut_frame "xs" = MutableRef /\ op_index false cut_frame "xs" = NoOverload.
Proof.
  split. { intros gs [<-|[<-|[]]]; apply two_sided; vm_compute; reflexivity. }
  split. { intros gs id [<-|[<-|[]]] H; simpl in H; intuition (subst; discriminate). }
  split. { intros gs id [<-|[<-|[]]] H; simpl in H; intuition (subst; discriminate). }
  split. { intros H. apply (H cut_frame (nul "n" "x")); simpl; auto. exists 1%nat. reflexivity. }
  split; [vm_compute; reflexivity|]. split; [vm_compute; reflexivity|].
  split; [vm_compute; reflexivity|]. split; [vm_compute; reflexivity|].
  split; [apply two_sided; vm_compute; reflexivity|].
  split. { unfold nul. simpl. repeat constructor; simpl; intuition discriminate. }
  vm_compute. auto.
Qed.

(** Names that differ, but not before a NUL, are not told apart: two fields are refused,
    and a reference goes to the field that agrees up to there. *)
Theorem C109_refuted : exists a b a',
  a <> b /\ a <> a' /\
  (let two := FCons a (fixed u8) CNone (FCons b (fixed u8) CNone FNil) in
   accepted 8 two = true /\ written_accepted 8 two = false) /\
  (let one := FCons a (fixed u8) CNone
                (FCons "xs" (FVar (TScalar u8) (LenField a') None) CNone FNil) in
   accepted 8 one = false /\ written_accepted 8 one = true /\
   rmem (written_read le64 one) [2; 5; 6] = (Ok [VZ 2; VSeq [VZ 5; VZ 6]], [])).
Proof.
  exists (nul "n" "x"), (nul "n" "y"), (nul "n" "z").
  split; [discriminate|]. split; [discriminate|]. vm_compute. auto.
Qed.
Print Assumptions C109_refuted.
