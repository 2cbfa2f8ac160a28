(** * Schemas whose optional fields have constraints on their bases *)
From Verif Require Import Schema Spec.
Local Open Scope list_scope.

(** The schema without the constraints of the optional fields' bases: what can be said with
    the [maybe] alias. *)
Fixpoint relaxed_ty (t : fty) : fty :=
  match t with
  | FStruct fs => FStruct (relaxed fs)
  | FArrRec n fs => FArrRec n (relaxed fs)
  | FVecRec fs sz l b => FVecRec (relaxed fs) sz l b
  | FMaybe b p ids => FMaybe (relaxed_ty b) p ids
  | FUnion g al => FUnion g (relaxed_alts al)
  | _ => t
  end
with relaxed (fs : fields) : fields :=
  match fs with
  | FNil => FNil
  | FCons id (FMaybe b p ids) _ fs' => FCons id (FMaybe (relaxed_ty b) p ids) CNone (relaxed fs')
  | FCons id t k fs' => FCons id (relaxed_ty t) k (relaxed fs')
  end
with relaxed_alts (al : alts) : alts :=
  match al with
  | ANil => ANil
  | ACons t k al' => ACons (relaxed_ty t) k (relaxed_alts al')
  end.

(** [P b k v] for every optional field that is there, at every depth: [b] is its base, [k]
    the base's constraint, [v] its value. *)
Fixpoint payloads_ty (P : fty -> constr -> val -> Prop) (t : fty) (k : constr) (v : val)
  {struct t} : Prop :=
  match t, v with
  | FStruct fs, VRec vs => payloads P fs vs
  | FArrRec _ fs, VSeq xs | FVecRec fs _ _ _, VSeq xs =>
      Forall (fun x => match x with VRec vs => payloads P fs vs | _ => True end) xs
  | FMaybe b _ _, VSome v' => P b k v' /\ payloads_ty P b k v'
  | FUnion _ al, VAlt i v' => payloads_alt P al i v'
  | _, _ => True
  end
with payloads (P : fty -> constr -> val -> Prop) (fs : fields) (vs : list val) {struct fs} : Prop :=
  match fs, vs with
  | FCons _ t k fs', v :: vs' => payloads_ty P t k v /\ payloads P fs' vs'
  | _, _ => True
  end
with payloads_alt (P : fty -> constr -> val -> Prop) (al : alts) (i : nat) (v : val)
  {struct al} : Prop :=
  match al, i with
  | ANil, _ => True
  | ACons t k _, O => payloads_ty P t k v
  | ACons _ _ al', S i' => payloads_alt P al' i' v
  end.

(** Every constraint of a base holds of what is there. *)
Definition kept : fields -> list val -> Prop := payloads (fun _ k v => holds k v).
