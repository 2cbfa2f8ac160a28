(** * C102: exactly when a cast is undefined

    With C50 and C52 this covers every outcome: no schema and no input is left out by a
    guard such as [plain_fields]. *)
From Verif Require Import PropDefs WExact RExact RUndef WUndef Examples RUndefFacts WUndefFacts.
Import ListNotations.

(** Reading is undefined when the input starts with valid values of some fields, and what
    follows gives a [bool] in the next one another byte than 0 and 1, or makes its
    constraint meaningless. *)
Theorem C102_read : forall c fs bs,
  wf fs = true -> typed fs = true -> Forall byte_ok bs ->
  (fst (rmem (struct_cast c fs) bs) = UB <->
   exists pre id t k post vs rest, fs = f_app pre (FCons id t k post) /\
     valid c pre vs /\ bs = enc_fields (c_wire c) pre vs ++ rest /\
     rundef_field c (mk_env pre vs) t k rest).
Proof. exact read_ub_iff. Qed.
Print Assumptions C102_read.

(** A vector of [bool]s, then a string of at most three characters that is not "abc". *)
Definition flags : fields :=
  FCons "n" (fixed u8) CNone
 (FCons "on" (FVar (TScalar SBool) (LenField "n") None) CNone
 (FCons "tag" (FFixed (TFixStr 3) 4) (CStr true [97; 98; 99; 0]) FNil)).

Example C102_read_case :
  rmem (struct_cast le64 flags) [2; 1; 0; 97; 98; 0; 0] =
    (Ok [VZ 2; VSeq [VZ 1; VZ 0]; VSeq (map VZ [97; 98; 0; 0])], []) /\
  (valid le64 (f_take 1 flags) [VZ 2] /\
   rundef_field le64 (mk_env (f_take 1 flags) [VZ 2]) (FVar (TScalar SBool) (LenField "n") None) CNone
     [1; 7; 97; 98; 0; 0] /\
   fst (rmem (struct_cast le64 flags) [2; 1; 7; 97; 98; 0; 0]) = UB) /\
  (valid le64 (f_take 2 flags) [VZ 2; VSeq [VZ 1; VZ 0]] /\
   rundef_field le64 (mk_env (f_take 2 flags) [VZ 2; VSeq [VZ 1; VZ 0]]) (FFixed (TFixStr 3) 4)
     (CStr true [97; 98; 99; 0]) [97; 98; 99; 100] /\
   fst (rmem (struct_cast le64 flags) [2; 1; 0; 97; 98; 99; 100]) = UB).
Proof.
  assert (L : forall vs, len_is le64 (("n", VZ 2) :: vs) (LenField "n") 2).
  { intros vs. exists 2. split; reflexivity. }
  assert (W : within le64 None 1 2) by (unfold within; simpl; Lia.lia).
  split; [vm_compute; reflexivity|]. split; (split; [|split; [|vm_compute; reflexivity]]).
  - unfold valid, representable. simpl. unfold representable. simpl. repeat split; repeat constructor.
  - left. exists 2%nat. split; [apply L|]. split; [exact W|]. split; [simpl; Lia.lia|].
    exists 1%nat, 7. simpl. repeat split; auto; discriminate.
  - unfold valid, representable. simpl. unfold representable. simpl. repeat split; repeat constructor.
    exists [VZ 1; VZ 0]. repeat split; repeat constructor; [exists 2; split; reflexivity|exact W].
  - right. exists (VSeq (map VZ [97; 98; 99; 100])), []. split; [|split; [reflexivity|]].
    + simpl. unfold representable. simpl. repeat split; [|apply Forall_nil].
      repeat (apply Forall_cons; [eexists; split; [reflexivity|unfold byte_ok; Lia.lia]|]). apply Forall_nil.
    + exists [97; 98; 99; 100]. split; [reflexivity|]. simpl. intros [H|[H|[H|[H|[]]]]]; discriminate.
Qed.

(** Every input: a valid struct, a fault, or undefined. *)
Theorem C102_read_total : forall c fs bs,
  wf fs = true -> typed fs = true -> Forall byte_ok bs ->
  (exists vs rest, valid c fs vs /\ bs = enc_fields (c_wire c) fs vs ++ rest) \/
  (exists pre id t k post vs rest, fs = f_app pre (FCons id t k post) /\
     valid c pre vs /\ bs = enc_fields (c_wire c) pre vs ++ rest /\
     ((exists r, rfault_field c (mk_env pre vs) t k rest r) \/
      rundef_field c (mk_env pre vs) t k rest)).
Proof. exact read_total. Qed.
Print Assumptions C102_read_total.

Example C102_read_total_case : wf flags = true /\ typed flags = true /\ plain_fields flags = false /\
  fst (rmem (struct_cast le64 flags) [2; 1; 0; 97; 98; 99; 0]) = Err (ValidationFailure, "tag").
Proof. vm_compute. auto. Qed.

(** Writing is undefined when the fields before are in order and a constraint that is run,
    the field's own or one further down, is meaningless for its value. *)
Theorem C102_write : forall c fs vs,
  wf fs = true -> typed fs = true -> has_fields fs vs ->
  (fst (wmem (stream_cast c fs vs)) = UB <->
   exists pre id t k v, field_at fs vs pre id t k v /\
     ok_fields c fs vs pre (firstn (f_len pre) vs) /\ wundef_field c fs vs id t k v).
Proof. exact write_ub_iff. Qed.
Print Assumptions C102_write.

Definition unended : list val := [VZ 0; VSeq [VZ 1; VZ 0]; VSeq (map VZ [97; 98; 99; 100])].

Example C102_write_case : has_fields flags unended /\
  (exists pre id t k v, field_at flags unended pre id t k v /\
     ok_fields le64 flags unended pre (firstn (f_len pre) unended) /\
     wundef_field le64 flags unended id t k v) /\
  fst (wmem (stream_cast le64 flags unended)) = UB.
Proof.
  assert (H : has_fields flags unended).
  { simpl. repeat split; try reflexivity; repeat (apply Forall_cons || apply Forall_nil); try reflexivity;
      (eexists; split; [reflexivity|unfold byte_ok; Lia.lia]). }
  split; [exact H|]. split; [|vm_compute; reflexivity].
  apply (proj1 (write_ub_iff le64 flags unended eq_refl eq_refl H)). vm_compute. reflexivity.
Qed.

(** With [eq] instead of [neq] the literal is written whatever the slot holds. *)
Example C102_write_frozen :
  wmem (stream_cast le64 (FCons "tag" (FFixed (TFixStr 3) 4) (CStr false [97; 98; 99; 0]) FNil)
          [VSeq (map VZ [97; 98; 99; 100])]) = (Ok tt, [97; 98; 99; 0]).
Proof. vm_compute. reflexivity. Qed.

Theorem C102_write_total : forall c fs vs,
  wf fs = true -> typed fs = true -> has_fields fs vs ->
  writable c fs vs \/
  exists pre id t k v, field_at fs vs pre id t k v /\
     ok_fields c fs vs pre (firstn (f_len pre) vs) /\
     ((exists r, fault_field c fs vs id t k v r) \/ wundef_field c fs vs id t k v).
Proof. exact write_total. Qed.
Print Assumptions C102_write_total.

Example C102_write_total_case :
  wmem (stream_cast le64 flags [VZ 0; VSeq [VZ 1; VZ 0]; VSeq (map VZ [97; 0; 99; 100])]) =
    (Ok tt, [2; 1; 0; 97; 0; 99; 100]) /\
  fst (wmem (stream_cast le64 flags [VZ 0; VSeq [VZ 1; VZ 0]; VSeq (map VZ [97; 98; 99; 0])])) =
    Err (ValidationFailure, "tag").
Proof. vm_compute. auto. Qed.
