(** * C77-C79: changes to a schema or a build that change nothing *)
From Verif Require Import EquivSpec EquivFacts EquivFacts2 Examples Write.
Import ListNotations.

(** ** C77: names.  Renaming the fields one-to-one, in every list on its own, with the
    references to them, changes only the name in an error. *)
Theorem C77_read : forall c r fs fs' S alloc s,
  one_to_one r -> ren_fields r fs fs' ->
  rrun S alloc (struct_cast c fs') s =
  let '(o, s', ev) := rrun S alloc (struct_cast c fs) s in (ren_outcome r o, s', ev).
Proof. exact rename_read. Qed.
Print Assumptions C77_read.

Theorem C77_write : forall c r fs fs' vs S s,
  one_to_one r -> ren_fields r fs fs' ->
  wrun S (stream_cast c fs' vs) s =
  let '(o, s', ch) := wrun S (stream_cast c fs vs) s in (ren_outcome r o, s', ch).
Proof. exact rename_write. Qed.
Print Assumptions C77_write.

(** Prefixes; the nested record has its own. *)
Definition tag (p : string) (id : ident) : ident := append p id.

Definition rows : fields :=
  FCons "n" (fixed u8) CNone (FCons "k" (fixed u8) (CCmp OLt i32 3)
  (FCons "xs" (FVar (TScalar u8) (LenField "n") None) CNone
  (FCons "row" (FStruct (FCons "n" (fixed u8) CNone
                        (FCons "ys" (FVar (TScalar u8) (LenField "n") None) CNone FNil))) CNone
  (FCons "z" (FMaybe (fixed u8) bit0 ["k"]) CNone FNil)))).

Definition rows' : fields :=
  FCons "a.n" (fixed u8) CNone (FCons "a.k" (fixed u8) (CCmp OLt i32 3)
  (FCons "a.xs" (FVar (TScalar u8) (LenField "a.n") None) CNone
  (FCons "a.row" (FStruct (FCons "bb.n" (fixed u8) CNone
                          (FCons "bb.ys" (FVar (TScalar u8) (LenField "bb.n") None) CNone FNil))) CNone
  (FCons "a.z" (FMaybe (fixed u8) bit0 ["a.k"]) CNone FNil)))).

Lemma tag_one p : one_to_one (tag p).
Proof.
  intros a b. unfold tag. induction p as [|x p IH]; simpl; [auto|]. intros H. injection H. exact IH.
Qed.

Example C77_case : one_to_one (tag "a.") /\ ren_fields (tag "a.") rows rows' /\
  rmem (struct_cast le64 rows) [2; 1; 5; 6; 1; 7; 8] =
    (Ok [VZ 2; VZ 1; VSeq [VZ 5; VZ 6]; VRec [VZ 1; VSeq [VZ 7]]; VSome (VZ 8)], []) /\
  rmem (struct_cast le64 rows') [2; 1; 5; 6; 1; 7; 8] = rmem (struct_cast le64 rows) [2; 1; 5; 6; 1; 7; 8] /\
  fst (rmem (struct_cast le64 rows) [2; 9]) = Err (ValidationFailure, "k") /\
  fst (rmem (struct_cast le64 rows') [2; 9]) = Err (ValidationFailure, "a.k").
Proof.
  split; [apply tag_one|]. split; [|vm_compute; auto].
  apply (rn_cons (tag "a.") "n"); [apply rn_fixed|].
  apply (rn_cons (tag "a.") "k"); [apply rn_fixed|].
  apply (rn_cons (tag "a.") "xs"); [apply (rn_var (tag "a.") _ (LenField "n"))|].
  apply (rn_cons (tag "a.") "row").
  - apply (rn_struct _ (tag "bb.")); [apply tag_one|].
    apply (rn_cons (tag "bb.") "n"); [apply rn_fixed|].
    apply (rn_cons (tag "bb.") "ys"); [apply (rn_var (tag "bb.") _ (LenField "n"))|apply rn_nil].
  - apply (rn_cons (tag "a.") "z"); [|apply rn_nil].
    apply (rn_maybe (tag "a.") _ _ bit0 ["k"]). apply rn_fixed.
Qed.

(** Names may not be merged: the second [n] takes the place of the first. *)
Definition merge (id : ident) : ident := if String.eqb id "m" then "n" else id.

Theorem C77_merged_refuted : exists r fs fs' bs,
  ren_fields r fs fs' /\ (exists vs, rmem (struct_cast le64 fs) bs = (Ok vs, [])) /\
  forall vs, fst (rmem (struct_cast le64 fs') bs) <> Ok vs.
Proof.
  exists merge,
    (FCons "n" (fixed u8) CNone (FCons "m" (fixed u8) CNone
    (FCons "xs" (FVar (TScalar u8) (LenField "n") None) CNone FNil))),
    (FCons "n" (fixed u8) CNone (FCons "n" (fixed u8) CNone
    (FCons "xs" (FVar (TScalar u8) (LenField "n") None) CNone FNil))), [1; 2; 3].
  split; [|split].
  - apply (rn_cons merge "n"); [apply rn_fixed|]. apply (rn_cons merge "m"); [apply rn_fixed|].
    apply (rn_cons merge "xs"); [apply (rn_var merge _ (LenField "n"))|apply rn_nil].
  - exists [VZ 1; VZ 2; VSeq [VZ 3]]. vm_compute. reflexivity.
  - intros vs. vm_compute. discriminate.
Qed.
Print Assumptions C77_merged_refuted.

(** ** C78: the width of [size_t].  What a build reads, a build with a narrower [size_t]
    reads to the same result. *)
Theorem C78_read : forall c c' fs fs' bs o rest,
  narrower c c' -> below (c_szw c') (c_dmax c) -> ported_fields (c_szw c') fs fs' ->
  rmem (struct_cast c fs) bs = (o, rest) -> (forall e, o <> Err e) ->
  rmem (struct_cast c' fs') bs = (o, rest).
Proof. intros c c' fs fs' bs o rest N D. exact (narrow_read c c' N D fs fs' bs o rest). Qed.
Print Assumptions C78_read.

(** What it writes, the narrower one writes with the same calls. *)
Theorem C78_write : forall c c' fs vs S s o s' ch,
  narrower c c' -> cases_below_fields (c_szw c') fs -> Forall (sizes_below (c_szw c')) vs ->
  wrun S (stream_cast c fs vs) s = (o, s', ch) -> (forall e, o <> Err e) -> o <> Stuck ->
  wrun S (stream_cast c' fs vs) s = (o, s', ch).
Proof. intros c c' fs vs S s o s' ch N. exact (narrow_write c c' N fs vs S s o s' ch). Qed.
Print Assumptions C78_write.

(** The same builds with a four-byte [size_t]. *)
Definition le32 : cfg := mkCfg Little Little false 4 16777216.
Definition be32 : cfg := mkCfg Little Big false 4 16777216.

Definition pile : fields :=
  FCons "n" (fixed u64) CNone (FCons "sel" (fixed u64) CNone
  (FCons "ps" (FVecRec point 4 (LenField "n") (Some 64)) CNone
  (FCons "u" (FUnion (GField "sel" u64 [(u64, 4294967295); (u64, 1)])
    (ACons (fixed u16) CNone (ACons (FStruct point) CNone ANil))) CNone FNil))).

Definition pile_val : list val := [VZ 2; VZ 4294967295; VSeq [pt 1 1; pt 2 2]; VAlt 0 (VZ 7)].
Definition pile_le : list Z :=
  [2; 0; 0; 0; 0; 0; 0; 0; 255; 255; 255; 255; 0; 0; 0; 0; 1; 0; 1; 2; 0; 2; 7; 0].

Example C78_case : narrower le64 le32 /\ below 4 (c_dmax le64) /\ ported_fields 4 pile pile /\
  rmem (struct_cast le64 pile) pile_le = (Ok pile_val, []) /\
  cases_below_fields 4 pile /\ Forall (sizes_below 4) pile_val /\
  fst (fst (wrun budget_stream (stream_cast le64 pile pile_val) 24%nat)) = Ok tt.
Proof.
  split; [repeat split; simpl; auto|]. split; [vm_compute; split; congruence|].
  split.
  { assert (P : ported_fields 4 point point) by (repeat constructor).
    assert (B : bound_below 4 (Some 64)).
    { intros z E. injection E as <-. vm_compute. split; congruence. }
    repeat first [exact P | exact B | constructor]; vm_compute; congruence. }
  split; [vm_compute; reflexivity|].
  split; [simpl; unfold below; repeat constructor; vm_compute; congruence|].
  split; [|vm_compute; reflexivity].
  unfold pile_val, pt. repeat constructor; vm_compute; congruence.
Qed.

(** The other way round it does not hold: four bytes of the length of the message are
    dropped, and the cast reads one element. *)
Theorem C78_wider_refuted : exists fs bs vs,
  narrower le64 le32 /\ ported_fields 4 fs fs /\ wf fs = true /\
  rmem (struct_cast le32 fs) bs = (Ok vs, []) /\
  fst (rmem (struct_cast le64 fs) bs) = Err (ExcessiveLength, "xs").
Proof.
  exists (FCons "n" (fixed u64) CNone (FCons "xs" (FVar (TScalar u8) (LenField "n") None) CNone FNil)),
    [1; 0; 0; 0; 1; 0; 0; 0; 9], [VZ 4294967297; VSeq [VZ 9]].
  split; [repeat split; simpl; auto|].
  split; [repeat first [discriminate | constructor]|].
  vm_compute. auto.
Qed.
Print Assumptions C78_wider_refuted.

(** A match value that is no [size_t] of the narrower build: the two put different
    discriminants on the wire, and what the narrower one wrote is not read back. *)
Theorem C78_match_refuted : exists fs vs out out',
  narrower le64 le32 /\ wf fs = true /\ typed fs = true /\ has_fields fs vs /\
  wmem (stream_cast le64 fs vs) = (Ok tt, out) /\ rmem (struct_cast le64 fs) out = (Ok vs, []) /\
  wmem (stream_cast le32 fs vs) = (Ok tt, out') /\ out' <> out /\
  fst (rmem (struct_cast le32 fs) out') = Err (TypeDeductionFailure, "u").
Proof.
  exists (FCons "sel" (FFixed (TScalar (SInt 8 true)) 8) CNone
         (FCons "u" (FUnion (GField "sel" (SInt 8 true) [(i32, -1); (i32, 2)])
           (ACons (fixed u8) CNone (ACons (fixed u16) CNone ANil))) CNone FNil)),
    [VZ (-1); VAlt 0 (VZ 5)], [255; 255; 255; 255; 255; 255; 255; 255; 5],
    [255; 255; 255; 255; 0; 0; 0; 0; 5].
  split; [repeat split; simpl; auto|].
  split; [vm_compute; reflexivity|]. split; [vm_compute; reflexivity|].
  split; [has_it|]. repeat (split; [vm_compute; reflexivity|]).
  split; [discriminate|]. vm_compute. reflexivity.
Qed.
Print Assumptions C78_match_refuted.

(** ** C79: ceilings.  Writing does not look at them, at the default one, or at the sizes
    of the records. *)
Theorem C79_write : forall c c' fs fs' vs,
  same_but_cap c c' -> recapped_fields fs fs' ->
  stream_cast c' fs' vs = stream_cast c fs vs.
Proof. intros c c' fs fs' vs SC. exact (recap_write c c' SC fs fs' vs). Qed.
Print Assumptions C79_write.

(** Three elements behind a ceiling of two, one within it: both are written; reading
    back what was written fails for the first. *)
Definition capped (n : Z) : fields :=
  FCons "n" (fixed u8) CNone (FCons "xs" (FVar (TScalar u8) (LenField "n") (Some n)) CNone FNil).

Example C79_case : recapped_fields (capped 2) (capped 9) /\
  wmem (stream_cast le64 (capped 2) [VZ 0; VSeq [VZ 1; VZ 2; VZ 3]]) = (Ok tt, [3; 1; 2; 3]) /\
  wmem (stream_cast le64 (capped 9) [VZ 0; VSeq [VZ 1; VZ 2; VZ 3]]) = (Ok tt, [3; 1; 2; 3]) /\
  fst (rmem (struct_cast le64 (capped 2)) [3; 1; 2; 3]) = Err (ExcessiveLength, "xs") /\
  rmem (struct_cast le64 (capped 9)) [3; 1; 2; 3] = (Ok [VZ 3; VSeq [VZ 1; VZ 2; VZ 3]], []).
Proof. split; [repeat constructor|]. vm_compute. auto. Qed.

(** If every container declares its ceiling, the default one does not matter: no build
    setting raises or lowers what the schema declares. *)
Theorem C79_declared : forall c c' fs S alloc s, same_but_cap c c' ->
  Forall (fun eb => snd eb <> None) (containers_fields fs) ->
  rrun S alloc (struct_cast c' fs) s = rrun S alloc (struct_cast c fs) s.
Proof. exact declared_read. Qed.
Print Assumptions C79_declared.

Example C79_declared_case :
  Forall (fun eb => snd eb <> None) (containers_fields (capped 2)) /\
  same_but_cap le64 (mkCfg Little Little false 8 18446744073709551615) /\
  fst (rmem (struct_cast (mkCfg Little Little false 8 18446744073709551615) (capped 2)) [3; 1; 2; 3])
    = Err (ExcessiveLength, "xs").
Proof.
  split; [repeat constructor; discriminate|]. split; [repeat split|]. vm_compute. reflexivity.
Qed.
