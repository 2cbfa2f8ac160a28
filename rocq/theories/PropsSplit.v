(** * C123: a message made of parts *)
From Coq Require Import String.
From Verif Require Import Read Write Spec WSpec Typing PropDefs MoreDefs SplitSpec ReadFinal SplitFacts SplitMore Examples.
Import ListNotations.
Open Scope string_scope.
Open Scope list_scope.
Open Scope Z_scope.

(** Structs that are each valid on their own and share no name are valid as one struct. *)
Theorem C123_valid : forall fss, Forall (fun fs => wf fs = true) fss -> NoDup (concat (map f_ids fss)) ->
  wf (parts fss) = true.
Proof. exact parts_wf. Qed.
Print Assumptions C123_valid.

(** On every stream and under every allocator, one cast of the whole does what the casts of the parts
    do one after the other: same values, same error, same state of the stream, same reads. *)
Theorem C123_read : forall c fss, Forall (fun fs => wf fs = true) fss -> NoDup (concat (map f_ids fss)) ->
  forall S alloc s, rrun S alloc (struct_cast c (parts fss)) s =
    rrun S alloc (rbind (read_msgs c fss) (fun vss => RRet (concat vss))) s.
Proof. exact parts_read. Qed.
Print Assumptions C123_read.

(** And for writing, step for step. *)
Theorem C123_write : forall c fss vss, Forall (fun fs => wf fs = true) fss ->
  NoDup (concat (map f_ids fss)) -> Forall2 has_fields fss vss ->
  stream_cast c (parts fss) (concat vss) = write_msgs c (combine fss vss).
Proof. exact parts_write. Qed.
Print Assumptions C123_write.

(** Values fit the whole exactly when they fit each part. *)
Theorem C123_values : forall c fss vss, Forall (fun fs => wf fs = true) fss ->
  NoDup (concat (map f_ids fss)) -> Forall2 (fun fs vs => length vs = f_len fs) fss vss ->
  (valid c (parts fss) (concat vss) <-> Forall2 (valid c) fss vss).
Proof. exact parts_valid. Qed.
Print Assumptions C123_values.

(** Parts written by casts of their own are read back by one cast of the whole (guards as in C03, each
    on a part). *)
Theorem C123_back : forall c msgs out rest,
  Forall (fun m => let '(fs, vs) := m in
    wf fs = true /\ typed fs = true /\ has_fields fs vs /\ clean_fields c fs = true /\
    in_sync c fs vs /\ sized_fields c fs (emitted c fs vs)) msgs ->
  NoDup (concat (map (fun m => f_ids (fst m)) msgs)) ->
  wmem (write_msgs c msgs) = (Ok tt, out) ->
  rmem (struct_cast c (parts (map fst msgs))) (out ++ rest) =
    (Ok (concat (map (fun m => emitted c (fst m) (snd m)) msgs)), rest).
Proof. exact parts_back. Qed.
Print Assumptions C123_back.

(** ** A header, then a text with its length *)

Definition sp_a : fields := FCons "ver" (fixed u8) (CCmp OEq i32 1) FNil.
Definition sp_b : fields :=
  FCons "n" (fixed u8) CNone (FCons "s" (FVar (TScalar u8) (LenField "n") None) CNone FNil).
Definition sp_vs : list (list val) := [[VZ 1]; [VZ 2; VSeq [VZ 66; VZ 67]]].

Example C123_case : Forall (fun fs => wf fs = true) [sp_a; sp_b] /\
  NoDup (concat (map f_ids [sp_a; sp_b])) /\ Forall2 has_fields [sp_a; sp_b] sp_vs /\
  rmem (struct_cast be64 (parts [sp_a; sp_b])) [1; 2; 66; 67; 9] = (Ok (concat sp_vs), [9]) /\
  rmem (read_msgs be64 [sp_a; sp_b]) [1; 2; 66; 67; 9] = (Ok sp_vs, [9]) /\
  rmem (struct_cast be64 (parts [sp_a; sp_b])) [7; 2; 66; 67] =
    (Err (ValidationFailure, "ver"), [2; 66; 67]) /\
  wmem (stream_cast be64 (parts [sp_a; sp_b]) (concat sp_vs)) = (Ok tt, [1; 2; 66; 67]) /\
  wmem (write_msgs be64 (combine [sp_a; sp_b] sp_vs)) = (Ok tt, [1; 2; 66; 67]).
Proof.
  split; [repeat (apply Forall_cons; [reflexivity|]); apply Forall_nil|].
  split; [repeat (apply NoDup_cons; [cbn; intuition discriminate|]); apply NoDup_nil|].
  split; [apply Forall2_cons; [has_it|apply Forall2_cons; [has_it|apply Forall2_nil]]|].
  repeat (split; [vm_compute; reflexivity|]). vm_compute; reflexivity.
Qed.

Example C123_values_case : Forall2 (fun fs vs => length vs = f_len fs) [sp_a; sp_b] sp_vs /\
  valid be64 (parts [sp_a; sp_b]) (concat sp_vs).
Proof.
  split; [repeat (apply Forall2_cons; [reflexivity|]); apply Forall2_nil|].
  apply (read_sound be64 (parts [sp_a; sp_b]) [1; 2; 66; 67] (concat sp_vs) []).
  - reflexivity.
  - repeat constructor; unfold byte_ok; Lia.lia.
  - vm_compute. reflexivity.
Qed.

Example C123_back_case :
  Forall (fun m => let '(fs, vs) := m in
    wf fs = true /\ typed fs = true /\ has_fields fs vs /\ clean_fields be64 fs = true /\
    in_sync be64 fs vs /\ sized_fields be64 fs (emitted be64 fs vs)) (combine [sp_a; sp_b] sp_vs) /\
  rmem (struct_cast be64 (parts [sp_a; sp_b])) ([1; 2; 66; 67] ++ [9]) =
    (Ok (concat (map (fun m => emitted be64 (fst m) (snd m)) (combine [sp_a; sp_b] sp_vs))), [9]).
Proof.
  split; [|vm_compute; reflexivity].
  apply Forall_cons; [|apply Forall_cons; [|apply Forall_nil]];
    (split; [reflexivity|]; split; [reflexivity|]; split; [has_it|]; split; [reflexivity|]).
  - split; [cbn; repeat split; auto|vm_compute; repeat split; repeat constructor; discriminate].
  - split; [cbn; repeat split; auto|vm_compute; repeat split; repeat constructor; discriminate].
Qed.

(** A part that takes its length from another part cannot be cast alone: the whole is valid, the part
    is not. *)
Definition sp_n : fields := FCons "n" (fixed u8) CNone FNil.
Definition sp_s : fields := FCons "s" (FVar (TScalar u8) (LenField "n") None) CNone FNil.

Theorem C123_alone_refuted : ~ (forall a b, wf (f_app a b) = true -> wf b = true).
Proof. intros H. discriminate (H sp_n sp_s eq_refl). Qed.
Print Assumptions C123_alone_refuted.
