(** * What makes a read undefined

    Independent of the reader, in the form of RExact.v.  There are two sources: a [bool]
    whose byte is neither 0 nor 1, and a constraint evaluated on a value it cannot be
    evaluated on. *)
From Verif Require Export RExact.

(** Where the [bool]s are among the bytes of a [t]. *)
Fixpoint bools (t : ctype) : list nat :=
  match t with
  | TScalar SBool => [0%nat]
  | TArr n t' => flat_map (fun j => map (fun i => j * csize t' + i)%nat (bools t')) (seq 0 n)
  | _ => []
  end.

Definition bad_bool (t : ctype) (bs : list Z) : Prop :=
  exists i b, In i (bools t) /\ nth_error bs i = Some b /\ b <> 0 /\ b <> 1.

(** The constraint has no result: a floating-point number is converted to an integral type
    that does not have it, or a [fixed_string] without terminator is compared. *)
Definition senseless (k : constr) (v : val) : Prop :=
  match k with
  | CCmp _ s _ | CAny s _ => forall z, ~ int_of s v z
  | CStr _ _ => exists a, v = VSeq (map VZ a) /\ ~ In 0 a
  | CStrAny lits => lits <> [] /\ exists a, v = VSeq (map VZ a) /\ ~ In 0 a
  | _ => False
  end.

(** Reading a value of type [t] is undefined. *)
Fixpoint rundef_ty (c : cfg) (E : env) (t : fty) (bs : list Z) {struct t} : Prop :=
  match t with
  | FFixed t' n => (n <= length bs)%nat /\ bad_bool t' (firstn n bs)
  | FVar elt l b =>
      exists n, len_is c E l n /\ within c b (Z.of_nat (csize elt)) n /\
        (n * csize elt <= length bs)%nat /\ bad_bool (TArr n elt) (firstn (n * csize elt) bs)
  | FStruct gs => rundef_fields c [] gs bs
  | FArrRec n gs =>
      exists xs rest, (length xs < n)%nat /\ valid_records c gs xs /\
        bs = enc_records (c_wire c) gs xs ++ rest /\ rundef_fields c [] gs rest
  | FVecRec gs recsz l b =>
      exists n, len_is c E l n /\ within c b recsz n /\
        exists xs rest, (length xs < n)%nat /\ valid_records c gs xs /\
          bs = enc_records (c_wire c) gs xs ++ rest /\ rundef_fields c [] gs rest
  | FMaybe b p ids =>
      exists args, lookups E ids = Some args /\ p args = true /\ rundef_ty c E b bs
  | FUnion g al => exists i, selects E g i /\ rundef_alts c E al i bs
  end
with rundef_fields (c : cfg) (E : env) (gs : fields) (bs : list Z) {struct gs} : Prop :=
  match gs with
  | FNil => False
  | FCons id t k gs' =>
      rundef_ty c E t bs \/
      exists v rest, valid_ty c E t v /\ bs = enc_ty (c_wire c) t v ++ rest /\
        (senseless k v \/ (holds k v /\ rundef_fields c (E ++ [(id, v)]) gs' rest))
  end
with rundef_alts (c : cfg) (E : env) (al : alts) (i : nat) (bs : list Z) {struct al} : Prop :=
  match al, i with
  | ANil, _ => False
  | ACons t k _, O =>
      rundef_ty c E t bs \/
      exists v rest, valid_ty c E t v /\ bs = enc_ty (c_wire c) t v ++ rest /\ senseless k v
  | ACons _ _ al', S i' => rundef_alts c E al' i' bs
  end.

Definition rundef_field (c : cfg) (E : env) (t : fty) (k : constr) (bs : list Z) : Prop :=
  rundef_ty c E t bs \/
  exists v rest, valid_ty c E t v /\ bs = enc_ty (c_wire c) t v ++ rest /\ senseless k v.
