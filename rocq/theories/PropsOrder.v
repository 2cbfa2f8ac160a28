(** * C115: independent runs of fields declared in either order *)
From Coq Require Import String Permutation.
From Verif Require Import StaticSpec.
From Verif Require Import Read Write Static WSpec Typing PropDefs MoreSpec Laws DegenSpec OrderSpec OrderFacts OrderMore OrderStatic Examples.
Import ListNotations.
Open Scope string_scope.
Open Scope list_scope.
Open Scope Z_scope.

(** Two adjacent runs of fields, [a] and [b], that can be declared in either order: the
    structs that meet the description are the same, with the two runs exchanged. *)
Theorem C115_valid : forall c pre a b post vp va vb vq,
  wf (f_app pre (f_app a (f_app b post))) = true -> wf (f_app pre (f_app b (f_app a post))) = true ->
  length vp = f_len pre -> length va = f_len a -> length vb = f_len b ->
  (valid c (f_app pre (f_app a (f_app b post))) (vp ++ va ++ vb ++ vq) <->
   valid c (f_app pre (f_app b (f_app a post))) (vp ++ vb ++ va ++ vq)).
Proof. exact order_valid. Qed.
Print Assumptions C115_valid.

(** What is read one way is read the other way from the bytes with the two parts exchanged. *)
Theorem C115_read : forall c pre a b post bs vs rest,
  wf (f_app pre (f_app a (f_app b post))) = true -> wf (f_app pre (f_app b (f_app a post))) = true ->
  Forall byte_ok bs ->
  rmem (struct_cast c (f_app pre (f_app a (f_app b post)))) bs = (Ok vs, rest) ->
  exists vp va vb vq,
    vs = vp ++ va ++ vb ++ vq /\
    length vp = f_len pre /\ length va = f_len a /\ length vb = f_len b /\
    bs = enc_fields (c_wire c) pre vp ++ enc_fields (c_wire c) a va ++
         enc_fields (c_wire c) b vb ++ enc_fields (c_wire c) post vq ++ rest /\
    rmem (struct_cast c (f_app pre (f_app b (f_app a post))))
      (enc_fields (c_wire c) pre vp ++ enc_fields (c_wire c) b vb ++
       enc_fields (c_wire c) a va ++ enc_fields (c_wire c) post vq ++ rest) =
      (Ok (vp ++ vb ++ va ++ vq), rest).
Proof. exact order_read. Qed.
Print Assumptions C115_read.

(** What is written one way is written the other way with the two parts exchanged: lengths
    and discriminants are filled in alike, wherever their users are declared. *)
Theorem C115_write : forall c pre a b post vp va vb vq out,
  wf (f_app pre (f_app a (f_app b post))) = true ->
  typed (f_app pre (f_app a (f_app b post))) = true ->
  has_fields pre vp -> has_fields a va -> has_fields b vb -> has_fields post vq ->
  wmem (stream_cast c (f_app pre (f_app a (f_app b post))) (vp ++ va ++ vb ++ vq)) = (Ok tt, out) ->
  exists ep ea eb eq,
    emitted c (f_app pre (f_app a (f_app b post))) (vp ++ va ++ vb ++ vq) = ep ++ ea ++ eb ++ eq /\
    length ep = f_len pre /\ length ea = f_len a /\ length eb = f_len b /\
    out = enc_fields (c_wire c) pre ep ++ enc_fields (c_wire c) a ea ++
          enc_fields (c_wire c) b eb ++ enc_fields (c_wire c) post eq /\
    wmem (stream_cast c (f_app pre (f_app b (f_app a post))) (vp ++ vb ++ va ++ vq)) =
      (Ok tt, enc_fields (c_wire c) pre ep ++ enc_fields (c_wire c) b eb ++
              enc_fields (c_wire c) a ea ++ enc_fields (c_wire c) post eq).
Proof. exact order_write. Qed.
Print Assumptions C115_write.

(** ** Two containers sharing a length, a second length between them *)

Definition or_pre : fields := FCons "n" (fixed u8) CNone (FCons "m" (fixed u8) CNone FNil).
Definition or_a : fields :=
  FCons "xs" (FVar (TScalar u8) (LenField "n") None) CNone
 (FCons "k" (fixed u16) (CCmp OLt i32 300) FNil).
Definition or_b : fields := FCons "ys" (FVar (TScalar u16) (LenField "n") None) CNone FNil.
Definition or_post : fields := FCons "zs" (FVar (TScalar u8) (LenField "m") None) CNone FNil.

Example C115_case :
  wf (f_app or_pre (f_app or_a (f_app or_b or_post))) = true /\
  wf (f_app or_pre (f_app or_b (f_app or_a or_post))) = true /\
  typed (f_app or_pre (f_app or_a (f_app or_b or_post))) = true /\
  has_fields or_pre [VZ 0; VZ 0] /\
  has_fields or_a [VSeq [VZ 7; VZ 8]; VZ 258] /\
  has_fields or_b [VSeq [VZ 513; VZ 1]] /\
  has_fields or_post [VSeq [VZ 9]].
Proof. do 3 (split; [vm_compute; reflexivity|]). repeat split; has_it. Qed.

Example C115_runs :
  wmem (stream_cast be64 (f_app or_pre (f_app or_a (f_app or_b or_post)))
    [VZ 0; VZ 0; VSeq [VZ 7; VZ 8]; VZ 258; VSeq [VZ 513; VZ 1]; VSeq [VZ 9]]) =
    (Ok tt, [2; 1; 7; 8; 1; 2; 2; 1; 0; 1; 9]) /\
  wmem (stream_cast be64 (f_app or_pre (f_app or_b (f_app or_a or_post)))
    [VZ 0; VZ 0; VSeq [VZ 513; VZ 1]; VSeq [VZ 7; VZ 8]; VZ 258; VSeq [VZ 9]]) =
    (Ok tt, [2; 1; 2; 1; 0; 1; 7; 8; 1; 2; 9]) /\
  rmem (struct_cast be64 (f_app or_pre (f_app or_a (f_app or_b or_post))))
    [2; 1; 7; 8; 1; 2; 2; 1; 0; 1; 9] =
    (Ok [VZ 2; VZ 1; VSeq [VZ 7; VZ 8]; VZ 258; VSeq [VZ 513; VZ 1]; VSeq [VZ 9]], []) /\
  rmem (struct_cast be64 (f_app or_pre (f_app or_b (f_app or_a or_post))))
    [2; 1; 2; 1; 0; 1; 7; 8; 1; 2; 9] =
    (Ok [VZ 2; VZ 1; VSeq [VZ 513; VZ 1]; VSeq [VZ 7; VZ 8]; VZ 258; VSeq [VZ 9]], []).
Proof. vm_compute. auto. Qed.

(** The two orders need not be refused alike: the field named is the first one at fault. *)
Theorem C115_refusal_refuted : exists c pre a b post bs e e',
  wf (f_app pre (f_app a (f_app b post))) = true /\ wf (f_app pre (f_app b (f_app a post))) = true /\
  Forall byte_ok bs /\
  fst (rmem (struct_cast c (f_app pre (f_app a (f_app b post)))) bs) = Err e /\
  fst (rmem (struct_cast c (f_app pre (f_app b (f_app a post)))) bs) = Err e' /\ e <> e'.
Proof.
  exists be64, FNil, (FCons "x" (fixed u8) (CCmp OEq i32 1) FNil), (FCons "y" (fixed u8) (CCmp OEq i32 1) FNil), FNil, [2; 2].
  eexists. eexists. split; [reflexivity|]. split; [reflexivity|].
  split; [repeat constructor; unfold byte_ok; lia|].
  split; [vm_compute; reflexivity|]. split; [vm_compute; reflexivity|]. discriminate.
Qed.
Print Assumptions C115_refusal_refuted.

(** ** Any acceptable order of all the fields *)

Theorem C115_any_valid : forall c l l', Permutation l l' ->
  wf (declared l) = true -> wf (declared l') = true ->
  (valid c (declared l) (held l) <-> valid c (declared l') (held l')).
Proof. exact any_order_valid. Qed.
Print Assumptions C115_any_valid.

Theorem C115_any_read : forall c l l' bs rest, Permutation l l' ->
  wf (declared l) = true -> wf (declared l') = true -> Forall byte_ok bs ->
  rmem (struct_cast c (declared l)) bs = (Ok (held l), rest) ->
  bs = enc_fields (c_wire c) (declared l) (held l) ++ rest /\
  rmem (struct_cast c (declared l')) (enc_fields (c_wire c) (declared l') (held l') ++ rest) =
    (Ok (held l'), rest).
Proof. exact any_order_read. Qed.
Print Assumptions C115_any_read.

(** Each field is written as the same value, whatever the order. *)
Theorem C115_any_write : forall c l l' out, Permutation l l' ->
  wf (declared l) = true -> typed (declared l) = true -> has_fields (declared l) (held l) ->
  wmem (stream_cast c (declared l) (held l)) = (Ok tt, out) ->
  exists e, emitted c (declared l) (held l) = map e l /\
    out = enc_fields (c_wire c) (declared l) (map e l) /\
    wmem (stream_cast c (declared l') (held l')) = (Ok tt, enc_fields (c_wire c) (declared l') (map e l')).
Proof. exact any_order_write. Qed.
Print Assumptions C115_any_write.

(** A struct is refused in every order or in none. *)
Theorem C115_any_refused : forall c l l', Permutation l l' ->
  wf (declared l) = true -> wf (declared l') = true ->
  typed (declared l) = true -> has_fields (declared l) (held l) ->
  ((exists out, wmem (stream_cast c (declared l) (held l)) = (Ok tt, out)) <->
   (exists out, wmem (stream_cast c (declared l') (held l')) = (Ok tt, out))).
Proof. exact order_refuse. Qed.
Print Assumptions C115_any_refused.

Definition or_n : member := ("n", fixed u8, CNone, VZ 2).
Definition or_m : member := ("m", fixed u8, CNone, VZ 1).
Definition or_xs : member := ("xs", FVar (TScalar u8) (LenField "n") None, CNone, VSeq [VZ 7; VZ 8]).
Definition or_k : member := ("k", fixed u16, CCmp OLt i32 300, VZ 258).
Definition or_ys : member := ("ys", FVar (TScalar u16) (LenField "n") None, CNone, VSeq [VZ 513; VZ 1]).
Definition or_zs : member := ("zs", FVar (TScalar u8) (LenField "m") None, CNone, VSeq [VZ 9]).
Definition or_l1 : list member := [or_n; or_m; or_xs; or_k; or_ys; or_zs].
Definition or_l2 : list member := [or_m; or_zs; or_k; or_n; or_ys; or_xs].

Example C115_any_case :
  Permutation or_l1 or_l2 /\
  wf (declared or_l1) = true /\ wf (declared or_l2) = true /\
  typed (declared or_l1) = true /\ typed (declared or_l2) = true /\
  has_fields (declared or_l1) (held or_l1) /\
  wmem (stream_cast be64 (declared or_l1) (held or_l1)) = (Ok tt, [2; 1; 7; 8; 1; 2; 2; 1; 0; 1; 9]) /\
  wmem (stream_cast be64 (declared or_l2) (held or_l2)) = (Ok tt, [1; 9; 1; 2; 2; 2; 1; 0; 1; 7; 8]) /\
  rmem (struct_cast be64 (declared or_l1)) [2; 1; 7; 8; 1; 2; 2; 1; 0; 1; 9] = (Ok (held or_l1), []) /\
  rmem (struct_cast be64 (declared or_l2)) [1; 9; 1; 2; 2; 2; 1; 0; 1; 7; 8] = (Ok (held or_l2), []).
Proof.
  split.
  { unfold or_l1, or_l2. apply (Permutation_cons_app [or_m; or_zs; or_k] [or_ys; or_xs]).
    cbn [app]. apply perm_skip. apply (Permutation_cons_app [or_zs; or_k; or_ys] []). cbn [app].
    apply (Permutation_cons_app [or_zs] [or_ys]). cbn [app]. apply perm_swap. }
  do 4 (split; [vm_compute; reflexivity|]). split; [has_it|]. vm_compute. auto.
Qed.

(** ** Which orders are acceptable *)

(** Another order is accepted exactly when every name used is declared earlier (or is the
    field's own, see C32). *)
Theorem C115_accepted : forall szw l l', Permutation l l' -> named (declared l) ->
  accepted szw (declared l) = true ->
  (accepted szw (declared l') = true <-> uses_earlier_or_itself (declared l')).
Proof. exact order_accepted. Qed.
Print Assumptions C115_accepted.

(** The hypotheses on the second order above amount to this. *)
Theorem C115_follows : forall l l', Permutation l l' ->
  wf (declared l) = true -> typed (declared l) = true ->
  (wf (declared l') = true /\ typed (declared l') = true <-> uses_earlier (declared l')).
Proof. exact order_follows. Qed.
Print Assumptions C115_follows.

Example C115_accepted_case :
  named (declared or_l1) /\ accepted 8 (declared or_l1) = true /\ accepted 8 (declared or_l2) = true /\
  uses_earlier (declared or_l2) /\
  (let l3 := [or_m; or_zs; or_xs; or_n; or_k; or_ys] in
   Permutation or_l1 l3 /\ accepted 8 (declared l3) = false /\ ~ uses_earlier_or_itself (declared l3)).
Proof.
  split.
  { split; [cbn; intuition discriminate|]. intros id t k H.
    cbn in H. repeat (destruct H as [H|H]; [injection H as <- <- <-; cbn; intuition discriminate|]). destruct H. }
  split; [vm_compute; reflexivity|]. split; [vm_compute; reflexivity|].
  split.
  { apply (C115_follows or_l1 or_l2); [apply C115_any_case| | |split]; vm_compute; reflexivity. }
  cbv zeta. split.
  { unfold or_l1. apply (Permutation_cons_app [or_m; or_zs; or_xs] [or_k; or_ys]). cbn [app].
    apply perm_skip. apply (Permutation_cons_app [or_zs] [or_k; or_ys]). cbn [app].
    apply (Permutation_cons_app [or_zs] [or_ys]). cbn [app]. apply perm_swap. }
  split; [vm_compute; reflexivity|]. intros U.
  destruct (U 2%nat "xs" (m_ty or_xs) CNone "n" eq_refl) as [H|H]; [cbn; auto| |discriminate].
  cbn in H. intuition discriminate.
Qed.
