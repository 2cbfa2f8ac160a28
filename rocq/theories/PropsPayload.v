(** * C118: a message carried in another as bytes *)
From Coq Require Import String.
From Verif Require Import Read Write Spec WSpec Typing PropDefs PayloadSpec PayloadFacts Examples.
Import ListNotations.
Open Scope string_scope.
Open Scope list_scope.
Open Scope Z_scope.

(** A payload read as bytes and then, from those bytes, as a struct: read at once with the
    struct in its place, the message is the same. *)
Theorem C118_open : forall c pre post inner id l b bs vp ps vq rest ws,
  wf (opaque pre id l b post) = true -> wf (embedded pre id inner post) = true ->
  wf (f_app pre post) = true -> length vp = f_len pre -> Forall byte_ok bs ->
  rmem (struct_cast c (opaque pre id l b post)) bs = (Ok (vp ++ VSeq (map VZ ps) :: vq), rest) ->
  rmem (struct_cast c inner) ps = (Ok ws, []) ->
  rmem (struct_cast c (embedded pre id inner post)) bs = (Ok (vp ++ VRec ws :: vq), rest).
Proof. exact opened. Qed.
Print Assumptions C118_open.

(** The other way if the length is that of the struct's encoding. *)
Theorem C118_close : forall c pre post inner id l b bs vp vq rest ws,
  wf (opaque pre id l b post) = true -> wf (embedded pre id inner post) = true ->
  wf (f_app pre post) = true -> length vp = f_len pre -> Forall byte_ok bs ->
  rmem (struct_cast c (embedded pre id inner post)) bs = (Ok (vp ++ VRec ws :: vq), rest) ->
  let ps := enc_fields (c_wire c) inner ws in
  len_is c (mk_env (f_app pre post) (vp ++ vq)) l (length ps) -> within c b 1 (length ps) ->
  rmem (struct_cast c inner) ps = (Ok ws, []) /\
  rmem (struct_cast c (opaque pre id l b post)) bs = (Ok (vp ++ VSeq (map VZ ps) :: vq), rest).
Proof. exact closed. Qed.
Print Assumptions C118_close.

(** The payload stands in the message as it is, and whatever becomes of its bytes, the rest of
    the message is read as before. *)
Theorem C118_contained : forall c pre post id l b bs vp ps vq rest,
  wf (opaque pre id l b post) = true -> wf (f_app pre post) = true ->
  length vp = f_len pre -> Forall byte_ok bs ->
  rmem (struct_cast c (opaque pre id l b post)) bs = (Ok (vp ++ VSeq (map VZ ps) :: vq), rest) ->
  exists hd tl, bs = hd ++ ps ++ tl /\
    forall qs, Forall byte_ok qs -> length qs = length ps ->
      rmem (struct_cast c (opaque pre id l b post)) (hd ++ qs ++ tl) =
        (Ok (vp ++ VSeq (map VZ qs) :: vq), rest).
Proof. exact contained. Qed.
Print Assumptions C118_contained.

(** Writing puts it there as it is, between the fields before and after it. *)
Theorem C118_write : forall c pre post id l b vp ps vq out, length vp = f_len pre ->
  wf (opaque pre id l b post) = true -> typed (opaque pre id l b post) = true ->
  has_fields (opaque pre id l b post) (vp ++ VSeq (map VZ ps) :: vq) ->
  wmem (stream_cast c (opaque pre id l b post) (vp ++ VSeq (map VZ ps) :: vq)) = (Ok tt, out) ->
  exists hd tl up uq, out = hd ++ ps ++ tl /\
    emitted c (opaque pre id l b post) (vp ++ VSeq (map VZ ps) :: vq) = up ++ VSeq (map VZ ps) :: uq /\
    length up = f_len pre /\ hd = enc_fields (c_wire c) pre up /\ tl = enc_fields (c_wire c) post uq.
Proof. exact payload_write. Qed.
Print Assumptions C118_write.

(** ** A packet with a check after its payload *)

Definition pl_pre : fields := FCons "kind" (fixed u8) CNone (FCons "n" (fixed u16) CNone FNil).
Definition pl_post : fields := FCons "sum" (fixed u8) (CFun (fun v => match v with VZ z => z <? 200 | _ => false end)) FNil.
Definition pl_inner : fields :=
  FCons "m" (fixed u8) CNone (FCons "xs" (FVar (TScalar u16) (LenField "m") None) CNone FNil).
Definition pl_bs : list Z := [7; 5; 0; 2; 1; 0; 2; 0; 99; 42].

Example C118_case :
  wf (opaque pl_pre "body" (LenField "n") None pl_post) = true /\
  typed (opaque pl_pre "body" (LenField "n") None pl_post) = true /\
  wf (embedded pl_pre "body" pl_inner pl_post) = true /\ wf (f_app pl_pre pl_post) = true /\
  rmem (struct_cast le64 (opaque pl_pre "body" (LenField "n") None pl_post)) pl_bs =
    (Ok ([VZ 7; VZ 5] ++ VSeq (map VZ [2; 1; 0; 2; 0]) :: [VZ 99]), [42]) /\
  rmem (struct_cast le64 pl_inner) [2; 1; 0; 2; 0] = (Ok [VZ 2; VSeq [VZ 1; VZ 2]], []) /\
  rmem (struct_cast le64 (embedded pl_pre "body" pl_inner pl_post)) pl_bs =
    (Ok ([VZ 7; VZ 5] ++ VRec [VZ 2; VSeq [VZ 1; VZ 2]] :: [VZ 99]), [42]) /\
  wmem (stream_cast le64 (opaque pl_pre "body" (LenField "n") None pl_post)
    ([VZ 7; VZ 0] ++ VSeq (map VZ [2; 1; 0; 2; 0]) :: [VZ 99])) = (Ok tt, [7; 5; 0; 2; 1; 0; 2; 0; 99]).
Proof. vm_compute. repeat split. Qed.

(** Read at once, a payload that claims more than its length takes the bytes that follow. *)
Theorem C118_overrun_refuted : exists pre post inner id l bs vp ps vq ws rest,
  wf (opaque pre id l None post) = true /\ wf (embedded pre id inner post) = true /\
  rmem (struct_cast le64 (opaque pre id l None post)) bs = (Ok (vp ++ VSeq (map VZ ps) :: vq), rest) /\
  fst (rmem (struct_cast le64 inner) ps) = Err (BufferExhaustion, "xs") /\
  rmem (struct_cast le64 (embedded pre id inner post)) bs = (Ok ws, []).
Proof.
  exists pl_pre, pl_post, pl_inner, "body", (LenField "n"), [7; 3; 0; 2; 1; 0; 2; 0; 99],
    [VZ 7; VZ 3], [2; 1; 0], [VZ 2], [VZ 7; VZ 3; VRec [VZ 2; VSeq [VZ 1; VZ 2]]; VZ 99], [0; 99].
  vm_compute. repeat split.
Qed.
Print Assumptions C118_overrun_refuted.
