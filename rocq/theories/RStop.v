(** * Where a failed read leaves the stream

    Independent of the reader.  docs/reading.md: "on failure its read position is
    wherever the failing field stopped".  [bs]: the input where the field starts;
    [left]: what has not been consumed. *)
From Verif Require Export RExact.

(** A container whose bytes are missing: a constexpr stream is asked for one element
    at a time and has given all that are complete; any other stream is asked once. *)
Definition gave_up (c : cfg) (esz : nat) (bs left : list Z) : Prop :=
  if c_cx c then
    (length left < esz)%nat /\ exists used q, bs = used ++ left /\ length used = (q * esz)%nat
  else left = bs.

Fixpoint rstop_ty (c : cfg) (E : env) (t : fty) (bs : list Z) (r : reason) (left : list Z)
  {struct t} : Prop :=
  match t with
  | FFixed _ n => (length bs < n)%nat /\ r = BufferExhaustion /\ left = bs
  | FVar elt l b =>
      exists n, len_is c E l n /\
        ((~ within c b (Z.of_nat (csize elt)) n /\ r = ExcessiveLength /\ left = bs) \/
         (within c b (Z.of_nat (csize elt)) n /\ (length bs < n * csize elt)%nat /\
          r = BufferExhaustion /\ gave_up c (csize elt) bs left))
  | FStruct gs => rstop_fields c [] gs bs r left
  | FArrRec n gs =>
      exists xs rest, (length xs < n)%nat /\ valid_records c gs xs /\
        bs = enc_records (c_wire c) gs xs ++ rest /\ rstop_fields c [] gs rest r left
  | FVecRec gs recsz l b =>
      exists n, len_is c E l n /\
        ((~ within c b recsz n /\ r = ExcessiveLength /\ left = bs) \/
         (within c b recsz n /\
          exists xs rest, (length xs < n)%nat /\ valid_records c gs xs /\
            bs = enc_records (c_wire c) gs xs ++ rest /\ rstop_fields c [] gs rest r left))
  | FMaybe b p ids =>
      exists args, lookups E ids = Some args /\ p args = true /\ rstop_ty c E b bs r left
  | FUnion g al =>
      ((forall i, ~ selects E g i) /\ r = TypeDeductionFailure /\ left = bs) \/
      (exists i, selects E g i /\ rstop_alts c E al i bs r left)
  end
with rstop_fields (c : cfg) (E : env) (gs : fields) (bs : list Z) (r : reason) (left : list Z)
  {struct gs} : Prop :=
  match gs with
  | FNil => False
  | FCons id t k gs' =>
      rstop_ty c E t bs r left \/
      exists v rest, valid_ty c E t v /\ bs = enc_ty (c_wire c) t v ++ rest /\
        ((violates k v /\ r = ValidationFailure /\ left = rest) \/
         (holds k v /\ rstop_fields c (E ++ [(id, v)]) gs' rest r left))
  end
with rstop_alts (c : cfg) (E : env) (al : alts) (i : nat) (bs : list Z) (r : reason)
  (left : list Z) {struct al} : Prop :=
  match al, i with
  | ANil, _ => False
  | ACons t k _, O =>
      rstop_ty c E t bs r left \/
      exists v rest, valid_ty c E t v /\ bs = enc_ty (c_wire c) t v ++ rest /\
        violates k v /\ r = ValidationFailure /\ left = rest
  | ACons _ _ al', S i' => rstop_alts c E al' i' bs r left
  end.

(** A field of the list: its value is missing or bad, or it violates its constraint, which
    is found after all its bytes. *)
Definition rstop_field (c : cfg) (E : env) (t : fty) (k : constr) (bs : list Z) (r : reason)
  (left : list Z) : Prop :=
  rstop_ty c E t bs r left \/
  exists v rest, valid_ty c E t v /\ bs = enc_ty (c_wire c) t v ++ rest /\
    violates k v /\ r = ValidationFailure /\ left = rest.
