(** * C121: kinds of messages told apart by a field *)
From Coq Require Import String Permutation List Lia.
From Verif Require Import Read Write Spec Typing PropDefs DispatchSpec DispatchFacts Examples.
Import ListNotations.
Open Scope string_scope.
Open Scope list_scope.
Open Scope Z_scope.

(** A message of one kind is refused as one of another, at the field that tells them apart and
    nowhere else: [rest'] is what follows that field. *)
Theorem C121_refused : forall c pre id id' t k k' post post' bs vs rest,
  wf (f_app pre (FCons id t k post)) = true -> wf (f_app pre (FCons id' t k' post')) = true ->
  Forall byte_ok bs -> (forall v, has_ty t v -> check k v = CTrue -> check k' v = CFalse) ->
  rmem (struct_cast c (f_app pre (FCons id t k post))) bs = (Ok vs, rest) ->
  exists vp v vq rest', vs = vp ++ v :: vq /\ length vp = f_len pre /\
    bs = enc_fields (c_wire c) pre vp ++ enc_ty (c_wire c) t v ++ rest' /\
    rmem (struct_cast c (f_app pre (FCons id' t k' post'))) bs = (Err (ValidationFailure, id'), rest').
Proof. exact kind_refused. Qed.
Print Assumptions C121_refused.

(** Constraints that list different numbers ([eq], [any_of]) tell kinds apart, when the types they
    are given in have every number the field has. *)
Theorem C121_numbers : forall ft n s s' k k' l l' v,
  allowed k = Some (s, l) -> allowed k' = Some (s', l') ->
  (forall z, sc_in ft z = true -> sc_in s z = true) -> (forall z, sc_in ft z = true -> sc_in s' z = true) ->
  (forall z, In z l -> ~ In z l') -> has_ty (FFixed (TScalar ft) n) v ->
  check k v = CTrue -> check k' v = CFalse.
Proof. exact listed_apart. Qed.
Print Assumptions C121_numbers.

(** So do two different magic strings ([cstr]: the characters before the terminator). *)
Theorem C121_strings : forall x y a b v, cstr a = Some x -> cstr b = Some y -> x <> y ->
  check (CStr false a) v = CTrue -> check (CStr false b) v = CFalse.
Proof. exact str_apart. Qed.
Print Assumptions C121_strings.

(** Kinds of which every two are told apart can be tried in any order. *)
Theorem C121_order : forall c pre t bs, Forall byte_ok bs -> forall ks ks', Permutation ks ks' ->
  Forall (fun kd => wf (kind_fields pre t kd) = true) ks -> ForallOrdPairs (tells_apart t) ks ->
  tried c pre t ks bs = tried c pre t ks' bs.
Proof. exact tried_perm. Qed.
Print Assumptions C121_order.

(** ** Three kinds *)

Definition dk_pre : fields := FCons "ver" (fixed u8) CNone FNil.
Definition dk1 : kind_of_msg := ("ping", CCmp OEq i32 1, FNil).
Definition dk2 : kind_of_msg := ("data", CCmp OEq u8 2,
  FCons "n" (fixed u8) CNone (FCons "xs" (FVar (TScalar u8) (LenField "n") None) CNone FNil)).
Definition dk3 : kind_of_msg := ("stop", CAny i32 [3; 4], FCons "why" (fixed u16) CNone FNil).

Example C121_case :
  ForallOrdPairs (tells_apart (fixed u8)) [dk1; dk2; dk3] /\
  Forall (fun kd => wf (kind_fields dk_pre (fixed u8) kd) = true) [dk1; dk2; dk3] /\
  tried le64 dk_pre (fixed u8) [dk1; dk2; dk3] [9; 2; 1; 7; 8] = Some (dk2, [VZ 9; VZ 2; VZ 1; VSeq [VZ 7]], [8]) /\
  tried le64 dk_pre (fixed u8) [dk3; dk2; dk1] [9; 2; 1; 7; 8] = Some (dk2, [VZ 9; VZ 2; VZ 1; VSeq [VZ 7]], [8]) /\
  rmem (struct_cast le64 (kind_fields dk_pre (fixed u8) dk3)) [9; 2; 1; 7; 8] =
    (Err (ValidationFailure, "stop"), [1; 7; 8]).
Proof.
  assert (U : forall z, sc_in u8 z = true -> z = conv i32 z /\ z = conv u8 z).
  { intros z H. split; symmetry; apply ReadLemmas.conv_id; auto. revert H.
    change ((0 <=? z) && (z <? 256) = true -> (-4294967296 <=? 2 * z) && (2 * z <? 4294967296) = true).
    intros H. apply andb_true_iff in H. destruct H as [H1 H2]. apply Z.leb_le in H1. apply Z.ltb_lt in H2.
    apply andb_true_iff. split; [apply Z.leb_le|apply Z.ltb_lt]; lia. }
  split; [|vm_compute; repeat split; repeat constructor].
  assert (T : tells_apart (fixed u8) dk1 dk2 /\ tells_apart (fixed u8) dk1 dk3 /\ tells_apart (fixed u8) dk2 dk3).
  { split; [|split]; intros v H; destruct v as [z| | | | | |]; cbn in H; try contradiction;
      destruct (U z) as [E1 E2]; try tauto; cbn [dk1 dk2 dk3 fst snd check as_int]; rewrite <- ?E1, <- ?E2;
      cbn [do_cmp existsb]; split; intros X;
      repeat match goal with
             | |- context [z =? ?a] => destruct (Z.eqb_spec z a)
             | _ : context [z =? ?a] |- _ => destruct (Z.eqb_spec z a)
             end; subst; try discriminate; reflexivity. }
  destruct T as (T1 & T2 & T3).
  constructor; [constructor; [exact T1 | constructor; [exact T2 | constructor]]|].
  constructor; [constructor; [exact T3 | constructor]|]. constructor; constructor.
Qed.

(** Two different numbers of different types, one of them narrower than the field, do not:
    the same message is of both kinds, and the order decides. *)
Theorem C121_numbers_refuted : exists pre ft s s' a b bs v,
  a <> b /\ sc_in s a = true /\ sc_in s' b = true /\
  wf (f_app pre (FCons "k" (FFixed (TScalar ft) (ssize ft)) (CCmp OEq s a) FNil)) = true /\
  wf (f_app pre (FCons "k" (FFixed (TScalar ft) (ssize ft)) (CCmp OEq s' b) FNil)) = true /\
  rmem (struct_cast le64 (f_app pre (FCons "k" (FFixed (TScalar ft) (ssize ft)) (CCmp OEq s a) FNil))) bs = (Ok v, []) /\
  rmem (struct_cast le64 (f_app pre (FCons "k" (FFixed (TScalar ft) (ssize ft)) (CCmp OEq s' b) FNil))) bs = (Ok v, []).
Proof.
  exists FNil, u64, i32, u64, 7, (2 ^ 32 + 7), [7; 0; 0; 0; 1; 0; 0; 0], [VZ (2 ^ 32 + 7)].
  split; [discriminate|]. vm_compute. repeat split.
Qed.
Print Assumptions C121_numbers_refuted.
