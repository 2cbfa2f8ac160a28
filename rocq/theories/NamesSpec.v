(** * Names: what the statements of PropsNames.v say *)
From Coq Require Import String Ascii.
From Verif Require Export StaticSpec EquivSpec.
Local Open Scope list_scope.

(** The characters of a name. *)
Definition has_nul (s : string) : Prop := exists n, get n s = Some zero.

(** The names a field refers to in its own list. *)
Definition guide_refs (g : guide) : list ident :=
  match g with
  | GField id _ _ => [id]
  | GComp _ _ ids _ => ids
  | GLadder brs => flat_map snd brs
  end.

Fixpoint refs (t : fty) : list ident :=
  match t with
  | FFixed _ _ | FStruct _ | FArrRec _ _ => []
  | FVar _ l _ | FVecRec _ _ l _ => names_of l
  | FMaybe b _ ids => refs b ++ ids
  | FUnion g al => guide_refs g ++ refs_alts al
  end
with refs_alts (al : alts) : list ident :=
  match al with ANil => [] | ACons t _ al' => refs t ++ refs_alts al' end.

(** All names of a list: its fields' and those they refer to. *)
Fixpoint names (fs : fields) : list ident :=
  match fs with FNil => [] | FCons id t _ fs' => id :: refs t ++ names fs' end.

(** [r] keeps the different names of [l] apart. *)
Definition apart_on (r : ident -> ident) (l : list ident) : Prop :=
  forall a b, In a l -> In b l -> r a = r b -> a = b.

(** In each list of the schema. *)
Definition keeps_apart (r : ident -> ident) (fs : fields) : Prop :=
  forall gs, In gs (lists fs) -> apart_on r (names gs).

(** No name of the schema has property [P]. *)
Definition no_name (P : ident -> Prop) (fs : fields) : Prop :=
  forall gs id, In gs (lists fs) -> In id (names gs) -> ~ P id.
