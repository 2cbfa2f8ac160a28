(** * Schemas that describe the same messages: what the statements of PropsEquiv.v say

    Independent of the reader and the writer. *)
From Verif Require Export Spec Prog.

(** ** Renaming
    Every list of fields has names of its own; the ones in a nested list are renamed
    on their own. *)
Definition one_to_one (r : ident -> ident) : Prop := forall a b, r a = r b -> a = b.

Definition ren_len (r : ident -> ident) (l : lenspec) : lenspec :=
  match l with
  | LenField id => LenField (r id)
  | LenComp f ids => LenComp f (map r ids)
  end.

Definition ren_guide (r : ident -> ident) (g : guide) : guide :=
  match g with
  | GField id s cases => GField (r id) s cases
  | GComp f s ids cases => GComp f s (map r ids) cases
  | GLadder brs => GLadder (map (fun b => (fst b, map r (snd b))) brs)
  end.

Inductive ren_ty (r : ident -> ident) : fty -> fty -> Prop :=
| rn_fixed t n : ren_ty r (FFixed t n) (FFixed t n)
| rn_var e l b : ren_ty r (FVar e l b) (FVar e (ren_len r l) b)
| rn_struct q fs fs' : one_to_one q -> ren_fields q fs fs' -> ren_ty r (FStruct fs) (FStruct fs')
| rn_arr q n fs fs' : one_to_one q -> ren_fields q fs fs' -> ren_ty r (FArrRec n fs) (FArrRec n fs')
| rn_vec q fs fs' sz l b : one_to_one q -> ren_fields q fs fs' ->
    ren_ty r (FVecRec fs sz l b) (FVecRec fs' sz (ren_len r l) b)
| rn_maybe b b' p ids : ren_ty r b b' -> ren_ty r (FMaybe b p ids) (FMaybe b' p (map r ids))
| rn_union g al al' : ren_alts r al al' -> ren_ty r (FUnion g al) (FUnion (ren_guide r g) al')
with ren_fields (r : ident -> ident) : fields -> fields -> Prop :=
| rn_nil : ren_fields r FNil FNil
| rn_cons id t t' k fs fs' : ren_ty r t t' -> ren_fields r fs fs' ->
    ren_fields r (FCons id t k fs) (FCons (r id) t' k fs')
with ren_alts (r : ident -> ident) : alts -> alts -> Prop :=
| rn_anil : ren_alts r ANil ANil
| rn_acons t t' k al al' : ren_ty r t t' -> ren_alts r al al' ->
    ren_alts r (ACons t k al) (ACons t' k al').

(** The same outcome, but for the name in an error. *)
Definition ren_outcome {A} (r : ident -> ident) (o : outcome (reason * ident) A)
  : outcome (reason * ident) A :=
  match o with Err (e, id) => Err (e, r id) | _ => o end.

(** ** Another build
    Same host, wire, kind of stream and default ceiling; a [size_t] no wider. *)
Definition narrower (c c' : cfg) : Prop :=
  c_host c' = c_host c /\ c_wire c' = c_wire c /\ c_cx c' = c_cx c /\ c_dmax c' = c_dmax c /\
  (c_szw c' <= c_szw c)%nat.

(** The ceiling is a [size_t] of [w] bytes. *)
Definition below (w : nat) (z : Z) : Prop := 0 <= z < pow256 w.
Definition bound_below (w : nat) (b : option Z) : Prop := forall z, b = Some z -> below w z.

(** The same schema with records no larger ([sizeof] is the build's) and ceilings that
    are [size_t]s of [w] bytes. *)
Inductive ported_ty (w : nat) : fty -> fty -> Prop :=
| po_fixed t n : ported_ty w (FFixed t n) (FFixed t n)
| po_var e l b : bound_below w b -> ported_ty w (FVar e l b) (FVar e l b)
| po_struct fs fs' : ported_fields w fs fs' -> ported_ty w (FStruct fs) (FStruct fs')
| po_arr n fs fs' : ported_fields w fs fs' -> ported_ty w (FArrRec n fs) (FArrRec n fs')
| po_vec fs fs' sz sz' l b : ported_fields w fs fs' -> 0 < sz' <= sz -> bound_below w b ->
    ported_ty w (FVecRec fs sz l b) (FVecRec fs' sz' l b)
| po_maybe b b' p ids : ported_ty w b b' -> ported_ty w (FMaybe b p ids) (FMaybe b' p ids)
| po_union g al al' : ported_alts w al al' -> ported_ty w (FUnion g al) (FUnion g al')
with ported_fields (w : nat) : fields -> fields -> Prop :=
| po_nil : ported_fields w FNil FNil
| po_cons id t t' k fs fs' : ported_ty w t t' -> ported_fields w fs fs' ->
    ported_fields w (FCons id t k fs) (FCons id t' k fs')
with ported_alts (w : nat) : alts -> alts -> Prop :=
| po_anil : ported_alts w ANil ANil
| po_acons t t' k al al' : ported_ty w t t' -> ported_alts w al al' ->
    ported_alts w (ACons t k al) (ACons t' k al').

(** The match values of the switches on fields are [size_t]s of [w] bytes. *)
Definition guide_below (w : nat) (g : guide) : Prop :=
  match g with GField _ _ cases => Forall (fun sz => below w (snd sz)) cases | _ => True end.

Fixpoint cases_below (w : nat) (t : fty) : Prop :=
  match t with
  | FFixed _ _ | FVar _ _ _ => True
  | FStruct fs | FArrRec _ fs | FVecRec fs _ _ _ => cases_below_fields w fs
  | FMaybe b _ _ => cases_below w b
  | FUnion g al => guide_below w g /\ cases_below_alts w al
  end
with cases_below_fields (w : nat) (fs : fields) : Prop :=
  match fs with FNil => True | FCons _ t _ fs' => cases_below w t /\ cases_below_fields w fs' end
with cases_below_alts (w : nat) (al : alts) : Prop :=
  match al with ANil => True | ACons t _ al' => cases_below w t /\ cases_below_alts w al' end.

(** So are the sizes of the containers in a value. *)
Inductive sizes_below (w : nat) : val -> Prop :=
| sb_num z : sizes_below w (VZ z)
| sb_flt u z : sizes_below w (VF u z)
| sb_seq l : below w (Z.of_nat (length l)) -> Forall (sizes_below w) l -> sizes_below w (VSeq l)
| sb_rec l : Forall (sizes_below w) l -> sizes_below w (VRec l)
| sb_none : sizes_below w VNone
| sb_some v : sizes_below w v -> sizes_below w (VSome v)
| sb_alt i v : sizes_below w v -> sizes_below w (VAlt i v).

(** ** The same schema and build but for ceilings and the sizes of records *)
Definition same_but_cap (c c' : cfg) : Prop :=
  c_host c' = c_host c /\ c_wire c' = c_wire c /\ c_cx c' = c_cx c /\ c_szw c' = c_szw c.

Inductive recapped_ty : fty -> fty -> Prop :=
| rc_fixed t n : recapped_ty (FFixed t n) (FFixed t n)
| rc_var e l b b' : recapped_ty (FVar e l b) (FVar e l b')
| rc_struct fs fs' : recapped_fields fs fs' -> recapped_ty (FStruct fs) (FStruct fs')
| rc_arr n fs fs' : recapped_fields fs fs' -> recapped_ty (FArrRec n fs) (FArrRec n fs')
| rc_vec fs fs' sz sz' l b b' : recapped_fields fs fs' ->
    recapped_ty (FVecRec fs sz l b) (FVecRec fs' sz' l b')
| rc_maybe b b' p ids : recapped_ty b b' -> recapped_ty (FMaybe b p ids) (FMaybe b' p ids)
| rc_union g al al' : recapped_alts al al' -> recapped_ty (FUnion g al) (FUnion g al')
with recapped_fields : fields -> fields -> Prop :=
| rc_nil : recapped_fields FNil FNil
| rc_cons id t t' k fs fs' : recapped_ty t t' -> recapped_fields fs fs' ->
    recapped_fields (FCons id t k fs) (FCons id t' k fs')
with recapped_alts : alts -> alts -> Prop :=
| rc_anil : recapped_alts ANil ANil
| rc_acons t t' k al al' : recapped_ty t t' -> recapped_alts al al' ->
    recapped_alts (ACons t k al) (ACons t' k al').
