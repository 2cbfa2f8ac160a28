(** * Comparing casts: what the statements of PropsLaws.v say

    Independent of the reader and the writer. *)
From Verif Require Export Spec Prog.

(** ** A laxer schema

    The same fields; each constraint is replaced by one that accepts whatever it
    accepts, each ceiling by one that is at least as high.  [c] is the build of the
    first schema, [c'] that of the second; the default ceiling is theirs. *)
Definition laxer_constr (k k' : constr) : Prop := forall v, holds k v -> holds k' v.
Definition laxer_bound (c c' : cfg) (b b' : option Z) : Prop := ceiling_of c b <= ceiling_of c' b'.

Inductive laxer_ty (c c' : cfg) : fty -> fty -> Prop :=
| lax_fixed t n : laxer_ty c c' (FFixed t n) (FFixed t n)
| lax_var e l b b' : laxer_bound c c' b b' -> laxer_ty c c' (FVar e l b) (FVar e l b')
| lax_struct fs fs' : laxer_fields c c' fs fs' -> laxer_ty c c' (FStruct fs) (FStruct fs')
| lax_arr n fs fs' : laxer_fields c c' fs fs' -> laxer_ty c c' (FArrRec n fs) (FArrRec n fs')
| lax_vec fs fs' sz l b b' : laxer_fields c c' fs fs' -> laxer_bound c c' b b' ->
    laxer_ty c c' (FVecRec fs sz l b) (FVecRec fs' sz l b')
| lax_maybe b b' p ids : laxer_ty c c' b b' -> laxer_ty c c' (FMaybe b p ids) (FMaybe b' p ids)
| lax_union g al al' : laxer_alts c c' al al' -> laxer_ty c c' (FUnion g al) (FUnion g al')
with laxer_fields (c c' : cfg) : fields -> fields -> Prop :=
| lax_nil : laxer_fields c c' FNil FNil
| lax_cons id t t' k k' fs fs' : laxer_ty c c' t t' -> laxer_constr k k' ->
    laxer_fields c c' fs fs' -> laxer_fields c c' (FCons id t k fs) (FCons id t' k' fs')
with laxer_alts (c c' : cfg) : alts -> alts -> Prop :=
| lax_anil : laxer_alts c c' ANil ANil
| lax_acons t t' k k' al al' : laxer_ty c c' t t' -> laxer_constr k k' ->
    laxer_alts c c' al al' -> laxer_alts c c' (ACons t k al) (ACons t' k' al').

(** ** Schemas of single bytes *)
Fixpoint one_byte (t : ctype) : bool :=
  match t with
  | TScalar s => Nat.eqb (ssize s) 1
  | TArr _ t' => one_byte t'
  | TFixStr _ => true
  | TFloat w => Nat.eqb w 1
  end.

Fixpoint bytewise (t : fty) : bool :=
  match t with
  | FFixed t' _ => one_byte t'
  | FVar elt _ _ => one_byte elt
  | FStruct fs | FArrRec _ fs | FVecRec fs _ _ _ => bytewise_fields fs
  | FMaybe b _ _ => bytewise b
  | FUnion _ al => bytewise_alts al
  end
with bytewise_fields (fs : fields) : bool :=
  match fs with FNil => true | FCons _ t _ fs' => bytewise t && bytewise_fields fs' end
with bytewise_alts (al : alts) : bool :=
  match al with ANil => true | ACons t _ al' => bytewise t && bytewise_alts al' end.

(** ** Values that differ only in their numbers *)
Inductive same_shape : val -> val -> Prop :=
| sh_num a b : same_shape (VZ a) (VZ b)
| sh_flt w a b : same_shape (VF w a) (VF w b)
| sh_seq l m : Forall2 same_shape l m -> same_shape (VSeq l) (VSeq m)
| sh_rec l m : Forall2 same_shape l m -> same_shape (VRec l) (VRec m)
| sh_none : same_shape VNone VNone
| sh_some v w : same_shape v w -> same_shape (VSome v) (VSome w)
| sh_alt i v w : same_shape v w -> same_shape (VAlt i v) (VAlt i w).

(** ** The fields a field's length, presence or type is taken from *)
Definition len_refs (l : lenspec) : list ident :=
  match l with LenField id => [id] | LenComp _ ids => ids end.

Definition guide_refs (g : guide) : list ident :=
  match g with
  | GField id _ _ => [id]
  | GComp _ _ ids _ => ids
  | GLadder brs => flat_map snd brs
  end.

Fixpoint refs (t : fty) : list ident :=
  match t with
  | FFixed _ _ | FStruct _ | FArrRec _ _ => []
  | FVar _ l _ | FVecRec _ _ l _ => len_refs l
  | FMaybe b _ ids => ids ++ refs b
  | FUnion g al => guide_refs g ++ refs_alts al
  end
with refs_alts (al : alts) : list ident :=
  match al with ANil => [] | ACons t _ al' => refs t ++ refs_alts al' end.

Fixpoint refs_fields (fs : fields) : list ident :=
  match fs with FNil => [] | FCons _ t _ fs' => refs t ++ refs_fields fs' end.

(** ** Streams that stay failed

    An access to a failed stream is refused, and a refused access leaves the stream
    failed. *)
Definition sticky_in (S : istream) (failed : i_st S -> Prop) : Prop :=
  forall s n r s', i_read S s n = (r, s') ->
    (failed s -> r = None) /\ (r = None -> failed s').

Definition sticky_out (S : ostream) (failed : o_st S -> Prop) : Prop :=
  forall s bs r s', o_write S s bs = (r, s') ->
    (failed s -> r = false) /\ (r = false -> failed s').
