(** * C119: fields added to a message or to a payload *)
From Coq Require Import String.
From Verif Require Import Read Write Spec Typing PropDefs PayloadSpec EvolveFacts Examples PropsPayload.
Import ListNotations.
Open Scope string_scope.
Open Scope list_scope.
Open Scope Z_scope.

(** The older reader of a newer message gets the fields it knows, and leaves the bytes of the
    others. *)
Theorem C119_older : forall c fs gs bs vs us rest, wf (f_app fs gs) = true -> Forall byte_ok bs ->
  length vs = f_len fs -> rmem (struct_cast c (f_app fs gs)) bs = (Ok (vs ++ us), rest) ->
  rmem (struct_cast c fs) bs = (Ok vs, enc_fields (c_wire c) gs us ++ rest).
Proof. exact older_read. Qed.
Print Assumptions C119_older.

(** The newer reader of an older message that ends where it should fails at a field that was
    added, unless those can all be empty. *)
Theorem C119_newer : forall c fs gs ps vs, wf (f_app fs gs) = true -> Forall byte_ok ps ->
  rmem (struct_cast c fs) ps = (Ok vs, []) ->
  match rmem (struct_cast c (f_app fs gs)) ps with
  | (Ok ws, rest) => rest = [] /\ exists us, ws = vs ++ us /\ enc_fields (c_wire c) gs us = []
  | (Err (r, id), _) => In id (f_ids gs)
  | _ => True
  end.
Proof. exact newer_read. Qed.
Print Assumptions C119_newer.

(** In a payload carried as bytes, fields can be added at the end: the older reader gets the
    fields it knows, and both get the same fields around the payload. *)
Theorem C119_payload : forall c pre post inner more id l b bs vp ps vq rest ws us,
  wf (opaque pre id l b post) = true -> wf (embedded pre id (f_app inner more) post) = true ->
  wf (f_app pre post) = true -> length vp = f_len pre -> length ws = f_len inner -> Forall byte_ok bs ->
  rmem (struct_cast c (opaque pre id l b post)) bs = (Ok (vp ++ VSeq (map VZ ps) :: vq), rest) ->
  rmem (struct_cast c (f_app inner more)) ps = (Ok (ws ++ us), []) ->
  rmem (struct_cast c inner) ps = (Ok ws, enc_fields (c_wire c) more us) /\
  rmem (struct_cast c (embedded pre id (f_app inner more) post)) bs = (Ok (vp ++ VRec (ws ++ us) :: vq), rest).
Proof. exact payload_versions. Qed.
Print Assumptions C119_payload.

(** ** The packet of C118, with a field added to its payload *)

Definition ev_more : fields :=
  FCons "flags" (fixed u8) CNone
 (FCons "o" (FMaybe (fixed u8) (fun vs => match vs with [VZ z] => z =? 1 | _ => false end) ["flags"]) CNone FNil).
Definition ev_bs : list Z := [7; 4; 0; 1; 5; 0; 3; 99; 42].

Example C119_case :
  wf (opaque pl_pre "body" (LenField "n") None pl_post) = true /\
  wf (embedded pl_pre "body" (f_app pl_inner ev_more) pl_post) = true /\
  rmem (struct_cast le64 (opaque pl_pre "body" (LenField "n") None pl_post)) ev_bs =
    (Ok ([VZ 7; VZ 4] ++ VSeq (map VZ [1; 5; 0; 3]) :: [VZ 99]), [42]) /\
  rmem (struct_cast le64 (f_app pl_inner ev_more)) [1; 5; 0; 3] =
    (Ok ([VZ 1; VSeq [VZ 5]] ++ [VZ 3; VNone]), []) /\
  rmem (struct_cast le64 pl_inner) [1; 5; 0; 3] = (Ok [VZ 1; VSeq [VZ 5]], [3]) /\
  rmem (struct_cast le64 (f_app pl_inner ev_more)) [1; 5; 0] = (Err (BufferExhaustion, "flags"), []).
Proof. vm_compute. repeat split. Qed.

(** With the struct in the message itself, the older reader takes the added field for the one
    that follows. *)
Theorem C119_embedded_refuted : exists pre post inner more id bs vp ws us vq vq',
  wf (embedded pre id inner post) = true /\ wf (embedded pre id (f_app inner more) post) = true /\
  fst (rmem (struct_cast le64 (embedded pre id (f_app inner more) post)) bs) = Ok (vp ++ VRec (ws ++ us) :: vq) /\
  fst (rmem (struct_cast le64 (embedded pre id inner post)) bs) = Ok (vp ++ VRec ws :: vq') /\ vq <> vq'.
Proof.
  exists pl_pre, pl_post, pl_inner, ev_more, "body", ev_bs, [VZ 7; VZ 4], [VZ 1; VSeq [VZ 5]], [VZ 3; VNone], [VZ 99], [VZ 3].
  vm_compute. repeat split. discriminate.
Qed.
Print Assumptions C119_embedded_refuted.
