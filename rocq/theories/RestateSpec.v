(** * A named length or discriminant, restated as a computation: what the statements of
    PropsRestate.v say

    Independent of the reader and the writer. *)
From Verif Require Export Spec Prog WSpec.

(** A function that answers with its one argument. *)
Definition the_number (vs : list val) : Z := match vs with [VZ z] => z | _ => 0 end.

Inductive same_len : lenspec -> lenspec -> Prop :=
| sl_same l : same_len l l
| sl_named id : same_len (LenField id) (LenComp the_number [id]).

(** "The computed value, of type [r], equals the match value." *)
Definition branch (f : list val -> Z) (r : sty) (ids : list ident) (sv : sty * Z)
  : (list val -> bool) * list ident :=
  (fun vs => cxx_eq r (conv r (f vs)) (fst sv) (snd sv), ids).

Inductive same_guide : guide -> guide -> Prop :=
| sg_same g : same_guide g g
| sg_named id s cases : same_guide (GField id s cases) (GComp the_number s [id] cases)
| sg_asked f r ids cases : same_guide (GComp f r ids cases) (GLadder (map (branch f r ids) cases))
| sg_both id s cases : same_guide (GField id s cases) (GLadder (map (branch the_number s [id]) cases)).

(** The same schema but for how lengths and alternatives are asked for. *)
Inductive restated_ty : fty -> fty -> Prop :=
| rs_fixed t n : restated_ty (FFixed t n) (FFixed t n)
| rs_var e l l' b : same_len l l' -> restated_ty (FVar e l b) (FVar e l' b)
| rs_struct fs fs' : restated_fields fs fs' -> restated_ty (FStruct fs) (FStruct fs')
| rs_arr n fs fs' : restated_fields fs fs' -> restated_ty (FArrRec n fs) (FArrRec n fs')
| rs_vec fs fs' sz l l' b : restated_fields fs fs' -> same_len l l' ->
    restated_ty (FVecRec fs sz l b) (FVecRec fs' sz l' b)
| rs_maybe b b' p ids : restated_ty b b' -> restated_ty (FMaybe b p ids) (FMaybe b' p ids)
| rs_union g g' al al' : same_guide g g' -> restated_alts al al' ->
    restated_ty (FUnion g al) (FUnion g' al')
with restated_fields : fields -> fields -> Prop :=
| rs_nil : restated_fields FNil FNil
| rs_cons id t t' k fs fs' : restated_ty t t' -> restated_fields fs fs' ->
    restated_fields (FCons id t k fs) (FCons id t' k fs')
with restated_alts : alts -> alts -> Prop :=
| rs_anil : restated_alts ANil ANil
| rs_acons t t' k al al' : restated_ty t t' -> restated_alts al al' ->
    restated_alts (ACons t k al) (ACons t' k al').

(** Every length and every discriminant restated. *)
Definition x_len (l : lenspec) : lenspec :=
  match l with LenField id => LenComp the_number [id] | _ => l end.

Definition x_guide (g : guide) : guide :=
  match g with GField id s cases => GComp the_number s [id] cases | _ => g end.

Fixpoint x_ty (t : fty) : fty :=
  match t with
  | FFixed _ _ => t
  | FVar e l b => FVar e (x_len l) b
  | FStruct fs => FStruct (explicit fs)
  | FArrRec n fs => FArrRec n (explicit fs)
  | FVecRec fs sz l b => FVecRec (explicit fs) sz (x_len l) b
  | FMaybe b p ids => FMaybe (x_ty b) p ids
  | FUnion g al => FUnion (x_guide g) (x_alts al)
  end
with explicit (fs : fields) : fields :=
  match fs with FNil => FNil | FCons id t k fs' => FCons id (x_ty t) k (explicit fs') end
with x_alts (al : alts) : alts :=
  match al with ANil => ANil | ACons t k al' => ACons (x_ty t) k (x_alts al') end.

(** Every slot pinned with [eq] admits one value only, at any depth. *)
Fixpoint pins_ty (t : fty) : bool :=
  match t with
  | FStruct fs | FArrRec _ fs | FVecRec fs _ _ _ => pins_fields fs
  | FMaybe b _ _ => pins_ty b
  | FUnion _ al => pins_alts al
  | _ => true
  end
with pins_fields (fs : fields) : bool :=
  match fs with FNil => true | FCons _ t k fs' => pins_ty t && pin_exact t k && pins_fields fs' end
with pins_alts (al : alts) : bool :=
  match al with ANil => true | ACons t _ al' => pins_ty t && pins_alts al' end.
