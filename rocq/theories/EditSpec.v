(** * One field changed *)
From Verif Require Export Spec.
Import ListNotations.

(** The field that tells the length or the alternative of a field of this type. *)
Definition told_by (t : fty) : list ident :=
  match t with
  | FVar _ (LenField id) _ | FVecRec _ _ (LenField id) _ | FUnion (GField id _ _) _ => [id]
  | _ => []
  end.

(** The message, field by field. *)
Fixpoint pieces (o : endian) (fs : fields) (vs : list val) : list (list Z) :=
  match fs, vs with
  | FCons _ t _ fs', v :: vs' => enc_ty o t v :: pieces o fs' vs'
  | _, _ => []
  end.
