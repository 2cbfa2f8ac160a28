(** * Vocabulary for floating-point lengths *)
From Verif Require Export FloatLen Spec.
Local Open Scope Z_scope.

(** The length as a computation: of an integer, itself; of a floating-point number, its
    whole part, if [std::size_t] has it. *)
Definition as_number (c : cfg) (vs : list val) : Z :=
  match vs with
  | [VZ z] => z
  | [VF w z] => match ftoi (SInt (c_szw c) false) (fdec w z) with Some n => n | None => 0 end
  | _ => 0
  end.

(** The schema with every [len_from_field<"n">] spelled
    [len_from_fields<[](auto n) { return (std::size_t) n; }, "n">]. *)
Definition computed_len (c : cfg) (l : lenspec) : lenspec :=
  match l with LenField id => LenComp (as_number c) [id] | LenComp f ids => LenComp f ids end.

Fixpoint computed_ty (c : cfg) (t : fty) : fty :=
  match t with
  | FFixed t' n => FFixed t' n
  | FVar elt l b => FVar elt (computed_len c l) b
  | FStruct fs => FStruct (computed_fields c fs)
  | FArrRec n fs => FArrRec n (computed_fields c fs)
  | FVecRec fs z l b => FVecRec (computed_fields c fs) z (computed_len c l) b
  | FMaybe t' p ids => FMaybe (computed_ty c t') p ids
  | FUnion g al => FUnion g (computed_alts c al)
  end
with computed_fields (c : cfg) (fs : fields) : fields :=
  match fs with
  | FNil => FNil
  | FCons id t k fs' => FCons id (computed_ty c t) k (computed_fields c fs')
  end
with computed_alts (c : cfg) (al : alts) : alts :=
  match al with
  | ANil => ANil
  | ACons t k al' => ACons (computed_ty c t) k (computed_alts c al')
  end.

(** A container: [vec_field] or [str_field], or [vector_of_records]. *)
Inductive container : (lenspec -> fty) -> Prop :=
| ct_var : forall elt b, container (fun l => FVar elt l b)
| ct_rec : forall fs z b, container (fun l => FVecRec fs z l b).

(** Some number of the format of [w] bytes is the whole number [n]. *)
Definition exact_in (w : nat) (n : Z) : Prop :=
  exists z, 0 <= z < pow256 w /\ fdec w z = FFin (units n).

(** A floating-point number [n] of [w] bytes, then a container [id] of [n] elements. *)
Definition counted (w : nat) (n id : ident) (elt : ctype) (b : option Z) : fields :=
  FCons n (FFixed (TFloat w) w) CNone (FCons id (FVar elt (LenField n) b) CNone FNil).
