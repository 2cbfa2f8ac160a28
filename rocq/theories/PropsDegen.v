(** * C98: kinds of fields that can be replaced by simpler ones *)
From Verif Require Import DegenSpec DegenFacts Laws MoreSpec WSpec Typing Examples.
Import ListNotations.

(** An optional that is always there, a union that always takes its first alternative, an
    array of one record, a computed switch written as a ladder: the same calls of the stream and of the allocator, the same
    values but for the wrapping, the same errors. *)
Theorem C98_trivial_read : forall c pre id t k f t' k' post S alloc s,
  trivial c t k f t' k' ->
  wf (f_app pre (FCons id t k post)) = true -> wf (f_app pre (FCons id t' k' post)) = true ->
  ~ In id (refs_fields post) ->
  rrun S alloc (struct_cast c (f_app pre (FCons id t k post))) s =
  let '(o, s', ev) := rrun S alloc (struct_cast c (f_app pre (FCons id t' k' post))) s in
  (on_ok (at_pos (f_len pre) f) o, s', ev).
Proof. exact trivial_read. Qed.
Print Assumptions C98_trivial_read.

(** Writing, for a field that takes no length from another and is not pinned. *)
Theorem C98_trivial_write : forall c pre id t k f t' k' post S s ws,
  trivial c t k f t' k' ->
  wf (f_app pre (FCons id t k post)) = true -> wf (f_app pre (FCons id t' k' post)) = true ->
  ~ In id (refs_fields post) ->
  all_sources (FCons id t k FNil) = [] -> all_sources (FCons id t' k' FNil) = [] ->
  (forall u m, t' = FFixed u m -> pinned u k' = None) ->
  has_fields (f_app pre (FCons id t' k' post)) ws ->
  wrun S (stream_cast c (f_app pre (FCons id t k post)) (at_pos (f_len pre) f ws)) s =
  wrun S (stream_cast c (f_app pre (FCons id t' k' post)) ws) s.
Proof. exact trivial_write. Qed.
Print Assumptions C98_trivial_write.

(** An optional that is never there can be left out. *)
Theorem C98_absent_read : forall c pre id b p ids post S alloc s,
  (forall vs, p vs = false) ->
  wf (f_app pre (FCons id (FMaybe b p ids) CNone post)) = true -> ~ In id (refs_fields post) ->
  rrun S alloc (struct_cast c (f_app pre (FCons id (FMaybe b p ids) CNone post))) s =
  let '(o, s', ev) := rrun S alloc (struct_cast c (f_app pre post)) s in
  (on_ok (put_in (f_len pre) VNone) o, s', ev).
Proof. exact absent_read. Qed.
Print Assumptions C98_absent_read.

Theorem C98_absent_write : forall c pre id b p ids post S s ws,
  (forall vs, p vs = false) ->
  wf (f_app pre (FCons id (FMaybe b p ids) CNone post)) = true -> ~ In id (refs_fields post) ->
  len_source b = [] ->
  has_fields (f_app pre post) ws ->
  wrun S (stream_cast c (f_app pre (FCons id (FMaybe b p ids) CNone post)) (put_in (f_len pre) VNone ws)) s =
  wrun S (stream_cast c (f_app pre post) ws) s.
Proof. exact absent_write. Qed.
Print Assumptions C98_absent_write.

(** A container whose length is computed and always the same is an array: the same
    requests, the same bytes taken, the same values and errors.  It differs in allocating. *)
Theorem C98_constant_read : forall c n pre id t t' z post S alloc s,
  constant_length c n t t' z ->
  wf (f_app pre (FCons id t CNone post)) = true -> wf (f_app pre (FCons id t' CNone post)) = true ->
  ~ In id (refs_fields post) -> delivers S -> alloc z = true -> c_cx c = false ->
  exists o s' ev ev',
    rrun S alloc (struct_cast c (f_app pre (FCons id t CNone post))) s = (o, s', ev) /\
    rrun S alloc (struct_cast c (f_app pre (FCons id t' CNone post))) s = (o, s', ev') /\
    the_reads ev = the_reads ev'.
Proof. exact constant_read. Qed.
Print Assumptions C98_constant_read.

Theorem C98_constant_write : forall c n pre id t t' z post S s ws,
  constant_length c n t t' z ->
  wf (f_app pre (FCons id t CNone post)) = true -> wf (f_app pre (FCons id t' CNone post)) = true ->
  ~ In id (refs_fields post) -> c_cx c = false ->
  has_fields (f_app pre (FCons id t' CNone post)) ws ->
  wrun S (stream_cast c (f_app pre (FCons id t CNone post)) ws) s =
  wrun S (stream_cast c (f_app pre (FCons id t' CNone post)) ws) s.
Proof. exact constant_write. Qed.
Print Assumptions C98_constant_write.

(** Every one of them, between a length and the container it belongs to. *)
Definition dg_pre : fields := FCons "n" (fixed u8) CNone FNil.
Definition dg_post : fields := FCons "xs" (FVar (TScalar u8) (LenField "n") None) CNone FNil.
Definition dg t k : fields := f_app dg_pre (FCons "q" t k dg_post).
Definition yes (vs : list val) := true.
Definition never (vs : list val) := false.
Definition three (vs : list val) : Z := 3.
Definition dg_ladder : fty := FUnion (GLadder [(yes, ["n"]); (bit0, ["n"])])
  (ACons (fixed u16) (CCmp OLt i32 300) (ACons (fixed u8) CNone ANil)).
Definition dg_switch : fty := FUnion (GComp three i32 ["n"] [(i32, 3); (i32, 4)])
  (ACons (fixed u16) (CCmp OLt i32 300) (ACons (fixed u8) CNone ANil)).
Definition dg_rec : fields := FCons "x" (fixed u8) CNone (FCons "y" (fixed u16) CNone FNil).

Example C98_trivial_case :
  trivial le64 (FMaybe (fixed u16) yes ["n"]) CNone VSome (fixed u16) CNone /\
  trivial le64 dg_ladder CNone (VAlt 0) (fixed u16) (CCmp OLt i32 300) /\
  trivial le64 dg_switch CNone (VAlt 0) (fixed u16) (CCmp OLt i32 300) /\
  trivial le64 dg_switch CNone (fun v => v)
    (FUnion (GLadder (as_ladder three i32 ["n"] [(i32, 3); (i32, 4)]))
       (ACons (fixed u16) (CCmp OLt i32 300) (ACons (fixed u8) CNone ANil))) CNone /\
  trivial le64 (FArrRec 1 dg_rec) CNone (fun v => VSeq [v]) (FStruct dg_rec) CNone /\
  forallb wf [dg (FMaybe (fixed u16) yes ["n"]) CNone; dg (fixed u16) CNone; dg dg_ladder CNone;
              dg dg_switch CNone; dg (fixed u16) (CCmp OLt i32 300); dg (FArrRec 1 dg_rec) CNone;
              dg (FStruct dg_rec) CNone; dg (FMaybe (fixed u16) never ["n"]) CNone] = true /\
  refs_fields dg_post = ["n"] /\
  Forall (fun tk => all_sources (FCons "q" (fst tk) (snd tk) FNil) = [])
    [(FMaybe (fixed u16) yes ["n"], CNone); (dg_ladder, CNone); (dg_switch, CNone);
     (fixed u16, CCmp OLt i32 300); (FArrRec 1 dg_rec, CNone)] /\
  pinned (TScalar u16) (CCmp OLt i32 300) = None /\
  has_fields (dg (fixed u16) (CCmp OLt i32 300)) [VZ 2; VZ 7; VSeq [VZ 1; VZ 2]].
Proof.
  split; [constructor; auto|]. split; [constructor; auto|]. split; [constructor; reflexivity|].
  split; [apply tv_as_ladder|]. split; [constructor|]. split; [vm_compute; reflexivity|]. split; [reflexivity|].
  split; [repeat constructor|]. split; [reflexivity|]. has_it.
Qed.

Example C98_trivial_runs :
  rmem (struct_cast le64 (dg (fixed u16) (CCmp OLt i32 300))) [2; 7; 0; 1; 2] =
    (Ok [VZ 2; VZ 7; VSeq [VZ 1; VZ 2]], []) /\
  rmem (struct_cast le64 (dg dg_ladder CNone)) [2; 7; 0; 1; 2] =
    (Ok [VZ 2; VAlt 0 (VZ 7); VSeq [VZ 1; VZ 2]], []) /\
  rmem (struct_cast le64 (dg dg_switch CNone)) [2; 7; 2; 1; 2] =
    (Err (ValidationFailure, "q"), [1; 2]) /\
  wmem (stream_cast le64 (dg dg_ladder CNone) [VZ 0; VAlt 0 (VZ 7); VSeq [VZ 1; VZ 2]]) =
    (Ok tt, [2; 7; 0; 1; 2]) /\
  wmem (stream_cast le64 (dg (FMaybe (fixed u16) never ["n"]) CNone) [VZ 0; VNone; VSeq [VZ 1; VZ 2]]) =
    (Ok tt, [2; 1; 2]).
Proof. repeat split; vm_compute; reflexivity. Qed.

Example C98_constant_case :
  constant_length le64 3 (FVar (TScalar u16) (LenComp three ["n"]) None) (FFixed (TArr 3 (TScalar u16)) 6) 6 /\
  constant_length le64 3 (FVecRec dg_rec 4 (LenComp three ["n"]) (Some 12)) (FArrRec 3 dg_rec) 12 /\
  forallb wf [dg (FVar (TScalar u16) (LenComp three ["n"]) None) CNone; dg (FFixed (TArr 3 (TScalar u16)) 6) CNone;
              dg (FVecRec dg_rec 4 (LenComp three ["n"]) (Some 12)) CNone; dg (FArrRec 3 dg_rec) CNone] = true /\
  c_cx le64 = false /\
  has_fields (dg (FFixed (TArr 3 (TScalar u16)) 6) CNone) [VZ 0; VSeq [VZ 1; VZ 2; VZ 3]; VSeq [VZ 9]] /\
  wmem (stream_cast le64 (dg (FVar (TScalar u16) (LenComp three ["n"]) None) CNone)
          [VZ 0; VSeq [VZ 1; VZ 2; VZ 3]; VSeq [VZ 9]]) = (Ok tt, [1; 1; 0; 2; 0; 3; 0; 9]) /\
  rmem (struct_cast le64 (dg (FFixed (TArr 3 (TScalar u16)) 6) CNone)) [1; 1; 0; 2; 0; 3; 0; 9] =
    (Ok [VZ 1; VSeq [VZ 1; VZ 2; VZ 3]; VSeq [VZ 9]], []).
Proof.
  split. { apply (cl_numbers le64 3 (TScalar u16)); [reflexivity|reflexivity|vm_compute; discriminate]. }
  split. { apply (cl_records le64 3); [reflexivity|reflexivity|vm_compute; discriminate]. }
  split; [vm_compute; reflexivity|]. split; [reflexivity|]. split; [has_it|].
  split; vm_compute; reflexivity.
Qed.

(** A pinned field is written as its constant; as an alternative of a union it is checked. *)
Theorem C98_pinned_refuted : exists c pre id t k f t' k' post ws,
  trivial c t k f t' k' /\
  wf (f_app pre (FCons id t k post)) = true /\ wf (f_app pre (FCons id t' k' post)) = true /\
  ~ In id (refs_fields post) /\
  all_sources (FCons id t k FNil) = [] /\ all_sources (FCons id t' k' FNil) = [] /\
  has_fields (f_app pre (FCons id t' k' post)) ws /\
  wmem (stream_cast c (f_app pre (FCons id t' k' post)) ws) = (Ok tt, [1; 5; 9]) /\
  fst (wmem (stream_cast c (f_app pre (FCons id t k post)) (at_pos (f_len pre) f ws))) =
    Err (ValidationFailure, id).
Proof.
  exists le64, dg_pre, "q",
    (FUnion (GLadder [(yes, ["n"])]) (ACons (fixed u8) (CCmp OEq i32 5) ANil)), CNone, (VAlt 0),
    (fixed u8), (CCmp OEq i32 5), dg_post, [VZ 0; VZ 0; VSeq [VZ 9]].
  split; [constructor; auto|]. split; [vm_compute; reflexivity|]. split; [vm_compute; reflexivity|].
  split; [simpl; intuition discriminate|]. split; [reflexivity|]. split; [reflexivity|].
  split; [has_it|]. split; vm_compute; reflexivity.
Qed.
Print Assumptions C98_pinned_refuted.

(** The length of a container is filled in; that of an optional one, even if it is always
    there, has to be right. *)
Theorem C98_source_refuted : exists c pre id t k f t' k' post ws,
  trivial c t k f t' k' /\
  wf (f_app pre (FCons id t k post)) = true /\ wf (f_app pre (FCons id t' k' post)) = true /\
  ~ In id (refs_fields post) /\
  (forall u m, t' = FFixed u m -> pinned u k' = None) /\
  has_fields (f_app pre (FCons id t' k' post)) ws /\
  wmem (stream_cast c (f_app pre (FCons id t' k' post)) ws) = (Ok tt, [1; 9]) /\
  fst (wmem (stream_cast c (f_app pre (FCons id t k post)) (at_pos (f_len pre) f ws))) =
    Err (FoundContradictingLength, "n").
Proof.
  exists le64, dg_pre, "q",
    (FMaybe (FVar (TScalar u8) (LenField "n") None) yes ["n"]), CNone, VSome,
    (FVar (TScalar u8) (LenField "n") None), CNone, FNil, [VZ 0; VSeq [VZ 9]].
  split; [constructor; auto|]. split; [vm_compute; reflexivity|]. split; [vm_compute; reflexivity|].
  split; [simpl; intuition discriminate|]. split; [discriminate|].
  split; [has_it|]. split; vm_compute; reflexivity.
Qed.
Print Assumptions C98_source_refuted.
