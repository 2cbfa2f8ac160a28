(** * C116: a message carried over to the other byte order *)
From Coq Require Import String.
From Verif Require Import Read Write Spec WSpec Typing PropDefs MoreSpec Laws RelaySpec RelayFacts Examples.
Import ListNotations.
Open Scope string_scope.
Open Scope list_scope.
Open Scope Z_scope.

(** A struct is written in both orders or refused in both with the same error, and the
    same number of bytes goes out. *)
Theorem C116_outcome : forall c c' fs vs, c_szw c = c_szw c' ->
  wf fs = true -> typed fs = true -> has_fields fs vs ->
  fst (wmem (stream_cast c fs vs)) = fst (wmem (stream_cast c' fs vs)) /\
  length (snd (wmem (stream_cast c fs vs))) = length (snd (wmem (stream_cast c' fs vs))).
Proof. exact order_outcome. Qed.
Print Assumptions C116_outcome.

(** One message is the other with each of its numbers back to front, if no field is
    narrower than its type. *)
Theorem C116_write : forall c c' fs vs out, c_szw c = c_szw c' -> c_wire c <> c_wire c' ->
  wf fs = true -> typed fs = true -> full fs = true -> has_fields fs vs ->
  wmem (stream_cast c fs vs) = (Ok tt, out) ->
  list_sum (widths fs (emitted c fs vs)) = length out /\
  wmem (stream_cast c' fs vs) = (Ok tt, turn (widths fs (emitted c fs vs)) out).
Proof. exact write_turned. Qed.
Print Assumptions C116_write.

(** What is read in one order can be written in the other (guard as in C04), and is read
    from there as the same struct. *)
Theorem C116_relay : forall c c' fs bs vs rest,
  c_szw c = c_szw c' -> c_dmax c = c_dmax c' -> c_wire c <> c_wire c' ->
  wf fs = true -> typed fs = true -> full fs = true -> reversible c' fs = true ->
  Forall byte_ok bs -> rmem (struct_cast c fs) bs = (Ok vs, rest) ->
  exists used, bs = used ++ rest /\ list_sum (widths fs vs) = length used /\
    wmem (stream_cast c' fs vs) = (Ok tt, turn (widths fs vs) used) /\
    forall rest', rmem (struct_cast c' fs) (turn (widths fs vs) used ++ rest') = (Ok vs, rest').
Proof. exact relay. Qed.
Print Assumptions C116_relay.

(** ** A message with numbers, characters and records *)

Definition ry_point : fields := FCons "x" (fixed u16) CNone (FCons "y" (FFixed (TFloat 4) 4) CNone FNil).
Definition ry : fields :=
  FCons "n" (fixed u16) CNone
 (FCons "tag" (FFixed (TFixStr 2) 3) CNone
 (FCons "g" (FFixed (TArr 2 (TScalar u16)) 4) CNone
 (FCons "ps" (FVecRec ry_point 8 (LenField "n") None) CNone
 (FCons "o" (FMaybe (fixed u32) (fun _ => true) []) CNone FNil)))).
Definition ry_val : list val :=
  [VZ 1; VSeq [VZ 65; VZ 66; VZ 0]; VSeq [VZ 258; VZ 3];
   VSeq [VRec [VZ 7; VF 4 305419896]]; VSome (VZ 4660)].
Definition ry_le : list Z := [1;0; 65;66;0; 2;1; 3;0; 7;0; 120;86;52;18; 52;18;0;0].
Definition ry_be : list Z := [0;1; 65;66;0; 1;2; 0;3; 0;7; 18;52;86;120; 0;0;18;52].

Example C116_case :
  c_szw le64 = c_szw be64 /\ c_dmax le64 = c_dmax be64 /\ c_wire le64 <> c_wire be64 /\
  wf ry = true /\ typed ry = true /\ full ry = true /\ reversible be64 ry = true /\
  has_fields ry ry_val /\
  widths ry ry_val = [2; 1; 1; 1; 2; 2; 2; 4; 4]%nat /\ turn (widths ry ry_val) ry_le = ry_be /\
  rmem (struct_cast le64 ry) (ry_le ++ [9]) = (Ok ry_val, [9]) /\
  wmem (stream_cast le64 ry ry_val) = (Ok tt, ry_le) /\
  wmem (stream_cast be64 ry ry_val) = (Ok tt, ry_be).
Proof.
  do 2 (split; [reflexivity|]). split; [discriminate|]. do 4 (split; [vm_compute; reflexivity|]).
  split.
  { cbn. split; [reflexivity|].
    split; [split; [reflexivity|]; repeat (constructor; [eexists; split; [reflexivity|unfold byte_ok; lia]|]); constructor|].
    split; [split; [reflexivity|repeat constructor]|].
    split; [constructor; [repeat split; vm_compute; congruence|constructor]|]. repeat split. }
  vm_compute. auto 8.
Qed.

(** A field narrower than its type does not survive the change. *)
Theorem C116_narrow_refuted : exists fs bs vs out,
  wf fs = true /\ typed fs = true /\ reversible be64 fs = true /\ Forall byte_ok bs /\
  rmem (struct_cast le64 fs) bs = (Ok vs, []) /\ wmem (stream_cast be64 fs vs) = (Ok tt, out) /\
  fst (rmem (struct_cast be64 fs) out) <> Ok vs.
Proof.
  exists (FCons "x" (FFixed (TScalar u32) 2) CNone FNil), [5; 0], [VZ 5], [0; 0].
  do 3 (split; [reflexivity|]). split; [repeat constructor; discriminate|].
  do 2 (split; [reflexivity|]). vm_compute. discriminate.
Qed.
Print Assumptions C116_narrow_refuted.
