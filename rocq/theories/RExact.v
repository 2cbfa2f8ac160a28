(** * What stops a read

    Independent of the reader.  [E]: the values of the fields before.  Documented in
    docs/errors.md and docs/reading.md. *)
From Verif Require Export WExact.

Definition valid_records (c : cfg) (gs : fields) (xs : list val) : Prop :=
  Forall (fun x => exists ws, x = VRec ws /\ valid c gs ws) xs.

Definition enc_records (o : endian) (gs : fields) (xs : list val) : list Z :=
  flat_map (fun x => match x with VRec ws => enc_fields o gs ws | _ => [] end) xs.

(** The input does not continue with a value of type [t], for reason [r].  The fault
    is in the first bad record, in the first bad field of a record. *)
Fixpoint rfault_ty (c : cfg) (E : env) (t : fty) (bs : list Z) (r : reason) {struct t} : Prop :=
  match t with
  | FFixed _ n => (length bs < n)%nat /\ r = BufferExhaustion
  | FVar elt l b =>
      exists n, len_is c E l n /\
        ((~ within c b (Z.of_nat (csize elt)) n /\ r = ExcessiveLength) \/
         (within c b (Z.of_nat (csize elt)) n /\ (length bs < n * csize elt)%nat /\
          r = BufferExhaustion))
  | FStruct gs => rfault_fields c [] gs bs r
  | FArrRec n gs =>
      exists xs rest, (length xs < n)%nat /\ valid_records c gs xs /\
        bs = enc_records (c_wire c) gs xs ++ rest /\ rfault_fields c [] gs rest r
  | FVecRec gs recsz l b =>
      exists n, len_is c E l n /\
        ((~ within c b recsz n /\ r = ExcessiveLength) \/
         (within c b recsz n /\
          exists xs rest, (length xs < n)%nat /\ valid_records c gs xs /\
            bs = enc_records (c_wire c) gs xs ++ rest /\ rfault_fields c [] gs rest r))
  | FMaybe b p ids =>
      exists args, lookups E ids = Some args /\ p args = true /\ rfault_ty c E b bs r
  | FUnion g al =>
      ((forall i, ~ selects E g i) /\ r = TypeDeductionFailure) \/
      (exists i, selects E g i /\ rfault_alts c E al i bs r)
  end
with rfault_fields (c : cfg) (E : env) (gs : fields) (bs : list Z) (r : reason) {struct gs} : Prop :=
  match gs with
  | FNil => False
  | FCons id t k gs' =>
      rfault_ty c E t bs r \/
      exists v rest, valid_ty c E t v /\ bs = enc_ty (c_wire c) t v ++ rest /\
        ((violates k v /\ r = ValidationFailure) \/
         (holds k v /\ rfault_fields c (E ++ [(id, v)]) gs' rest r))
  end
with rfault_alts (c : cfg) (E : env) (al : alts) (i : nat) (bs : list Z) (r : reason)
  {struct al} : Prop :=
  match al, i with
  | ANil, _ => False
  | ACons t k _, O =>
      rfault_ty c E t bs r \/
      exists v rest, valid_ty c E t v /\ bs = enc_ty (c_wire c) t v ++ rest /\
        violates k v /\ r = ValidationFailure
  | ACons _ _ al', S i' => rfault_alts c E al' i' bs r
  end.

(** A field of the list: its value is missing or bad, or it violates its constraint. *)
Definition rfault_field (c : cfg) (E : env) (t : fty) (k : constr) (bs : list Z) (r : reason)
  : Prop :=
  rfault_ty c E t bs r \/
  exists v rest, valid_ty c E t v /\ bs = enc_ty (c_wire c) t v ++ rest /\
    violates k v /\ r = ValidationFailure.
