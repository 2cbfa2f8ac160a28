(** * C120: what a change to one field changes *)
From Coq Require Import String.
From Verif Require Import Read Write Spec WSpec Typing PropDefs EditSpec EditFacts Examples.
Import ListNotations.
Open Scope string_scope.
Open Scope list_scope.
Open Scope Z_scope.

(** Two structs that differ in one field are written alike, field by field, but for that field and
    the field that tells its length or its alternative. *)
Theorem C120_pieces : forall c pre post id t k vp vq x x',
  let fs := f_app pre (FCons id t k post) in
  length vp = f_len pre -> wf fs = true -> typed fs = true ->
  has_fields fs (vp ++ x :: vq) -> has_fields fs (vp ++ x' :: vq) -> forall out out',
  wmem (stream_cast c fs (vp ++ x :: vq)) = (Ok tt, out) ->
  wmem (stream_cast c fs (vp ++ x' :: vq)) = (Ok tt, out') ->
  let ps := pieces (c_wire c) fs (emitted c fs (vp ++ x :: vq)) in
  let ps' := pieces (c_wire c) fs (emitted c fs (vp ++ x' :: vq)) in
  out = concat ps /\ out' = concat ps' /\
  forall i j, nth_error (f_ids fs) i = Some j -> i <> f_len pre -> ~ In j (told_by t) ->
    nth_error ps i = nth_error ps' i.
Proof. exact ed_pieces. Qed.
Print Assumptions C120_pieces.

(** When no field tells it anything and the writer does not overwrite it, the bytes of that field
    are replaced in place, whatever their number. *)
Theorem C120_place : forall c pre post id t k vp vq x x',
  let fs := f_app pre (FCons id t k post) in
  length vp = f_len pre -> wf fs = true -> typed fs = true ->
  told_by t = [] -> overwritten fs id t k = false -> forall out out',
  has_fields fs (vp ++ x :: vq) -> has_fields fs (vp ++ x' :: vq) ->
  wmem (stream_cast c fs (vp ++ x :: vq)) = (Ok tt, out) ->
  wmem (stream_cast c fs (vp ++ x' :: vq)) = (Ok tt, out') ->
  exists hd tl, out = hd ++ enc_ty (c_wire c) t (emit_ty c t x) ++ tl /\
    out' = hd ++ enc_ty (c_wire c) t (emit_ty c t x') ++ tl.
Proof. exact place. Qed.
Print Assumptions C120_place.

(** A message that was read, changed in one such field and written is the message it was, with
    the bytes of that field replaced. *)
Theorem C120_edit : forall c pre post id t k vp vq x x',
  let fs := f_app pre (FCons id t k post) in
  length vp = f_len pre -> wf fs = true -> typed fs = true ->
  told_by t = [] -> overwritten fs id t k = false -> forall bs rest out,
  reversible c fs = true -> Forall byte_ok bs ->
  rmem (struct_cast c fs) bs = (Ok (vp ++ x :: vq), rest) -> has_fields fs (vp ++ x' :: vq) ->
  wmem (stream_cast c fs (vp ++ x' :: vq)) = (Ok tt, out) ->
  exists hd tl, bs = hd ++ enc_ty (c_wire c) t x ++ tl ++ rest /\
    out = hd ++ enc_ty (c_wire c) t (emit_ty c t x') ++ tl /\ hd = enc_fields (c_wire c) pre vp.
Proof. exact edit. Qed.
Print Assumptions C120_edit.

(** ** A name of told length between two numbers *)

Definition ed : fields :=
  FCons "a" (fixed u8) CNone (FCons "n" (fixed u8) CNone
 (FCons "s" (FVar (TScalar u8) (LenField "n") None) CNone (FCons "z" (fixed u16) CNone FNil))).

Example C120_edit_case :
  wf ed = true /\ typed ed = true /\ told_by (fixed u8) = [] /\
  overwritten ed "a" (fixed u8) CNone = false /\ reversible le64 ed = true /\
  rmem (struct_cast le64 ed) [1; 2; 5; 6; 9; 0; 77] = (Ok ([] ++ VZ 1 :: [VZ 2; VSeq [VZ 5; VZ 6]; VZ 9]), [77]) /\
  wmem (stream_cast le64 ed ([] ++ VZ 200 :: [VZ 2; VSeq [VZ 5; VZ 6]; VZ 9])) = (Ok tt, [200; 2; 5; 6; 9; 0]) /\
  has_fields ed ([] ++ VZ 200 :: [VZ 2; VSeq [VZ 5; VZ 6]; VZ 9]).
Proof. repeat split; try (vm_compute; reflexivity); has_it. Qed.

(** The name, longer by one: its bytes and its length change, and nothing else. *)
Example C120_pieces_case :
  wmem (stream_cast le64 ed [VZ 1; VZ 2; VSeq [VZ 5; VZ 6]; VZ 9]) = (Ok tt, [1; 2; 5; 6; 9; 0]) /\
  wmem (stream_cast le64 ed [VZ 1; VZ 2; VSeq [VZ 5; VZ 6; VZ 7]; VZ 9]) = (Ok tt, [1; 3; 5; 6; 7; 9; 0]) /\
  pieces Little ed (emitted le64 ed [VZ 1; VZ 2; VSeq [VZ 5; VZ 6; VZ 7]; VZ 9]) = [[1]; [3]; [5; 6; 7]; [9; 0]] /\
  told_by (FVar (TScalar u8) (LenField "n") None) = ["n"].
Proof. vm_compute. repeat split. Qed.

(** What is in the field another is told by is not what goes out: changing it alone changes
    nothing. *)
Example C120_no : overwritten ed "n" (fixed u8) CNone = true /\
  wmem (stream_cast le64 ed [VZ 1; VZ 200; VSeq [VZ 5; VZ 6]; VZ 9]) =
  wmem (stream_cast le64 ed [VZ 1; VZ 2; VSeq [VZ 5; VZ 6]; VZ 9]).
Proof. vm_compute. repeat split. Qed.

(** A guarded field is not told: a change to the field a predicate looks at leaves every other
    field as it was, so the write fails where the two disagree. *)
Definition ed_opt : fields :=
  FCons "f" (fixed u8) CNone
 (FCons "o" (FMaybe (fixed u8) (fun vs => match vs with [VZ z] => z =? 1 | _ => false end) ["f"]) CNone FNil).

Example C120_presence : told_by (fixed u8) = [] /\ overwritten ed_opt "f" (fixed u8) CNone = false /\
  wmem (stream_cast le64 ed_opt [VZ 1; VSome (VZ 7)]) = (Ok tt, [1; 7]) /\
  fst (wmem (stream_cast le64 ed_opt [VZ 0; VSome (VZ 7)])) <> Ok tt.
Proof. vm_compute. repeat split. discriminate. Qed.
