(** * Which structs can be written, and what stops the others

    Independent of the writer.  [F], [V]: the schema and the slots of the struct a
    field belongs to.  Documented in docs/writing.md. *)
From Verif Require Export WSpec Prog.

(** A constraint is violated.  A [fixed_string] without terminator neither satisfies
    nor violates a string constraint. *)
Definition violates (k : constr) (v : val) : Prop :=
  match k with
  | CCmp o s lit => exists z, int_of s v z /\ ~ cmp_holds o z lit
  | CAny s lits => exists z, int_of s v z /\ ~ In z lits
  | CStr neg lit =>
      exists a x y, v = VSeq (map VZ a) /\ c_string a x /\ c_string lit y /\
                    (if neg then x = y else x <> y)
  | CStrAny lits =>
      exists a, v = VSeq (map VZ a) /\
        (lits <> [] -> exists x, c_string a x /\
           Forall (fun m => exists y, c_string m y /\ y <> x) lits)
  | _ => ~ holds k v
  end.

(** The [size_t] [z] fits a field of type [s] declared [n] bytes wide. *)
Definition fits (c : cfg) (s : sty) (n : nat) (z : Z) : Prop :=
  z < 256 ^ Z.of_nat n /\
  exists x, sc_in s x = true /\ x mod 256 ^ Z.of_nat (c_szw c) = z.

(** The conditional containers that are going to be written have the count [w]. *)
Definition confirmed (c : cfg) (F : fields) (V : list val) (id : ident) (w : val) : Prop :=
  forall m, In m (cond_claims (mk_env F V) id F V) ->
    exists z, w = VZ z /\ m = z mod 256 ^ Z.of_nat (c_szw c).

(** The computed length is the number of elements there are. *)
Definition count_ok (c : cfg) (E : env) (l : lenspec) (n : nat) : Prop :=
  match l with
  | LenField _ => True
  | LenComp f ids =>
      exists args, lookups E ids = Some args /\
                   Z.of_nat n = f args mod 256 ^ Z.of_nat (c_szw c)
  end.

Definition guide_ok (E : env) (g : guide) (i : nat) : Prop :=
  match g with GField _ _ _ => True | _ => selects E g i end.

(** A fixed-size field of the list. *)
Definition fixed_ok (c : cfg) (F : fields) (V : list val) (id : ident) (k : constr)
  (t : ctype) (n : nat) (v : val) : Prop :=
  match claims c id F V with
  | z :: l =>
      Forall (eq z) l /\
      exists s, t = TScalar s /\ fits c s n z /\ holds k (VZ (conv s z)) /\
                confirmed c F V id (VZ (conv s z))
  | [] =>
      match pinned t k with
      | Some w => confirmed c F V id w
      | None => holds k v /\ confirmed c F V id v
      end
  end.

(** ** Structs that can be written *)

Fixpoint ok_ty (c : cfg) (E : env) (t : fty) (v : val) {struct t} : Prop :=
  match t with
  | FFixed _ _ => True
  | FVar _ l _ => exists xs, v = VSeq xs /\ count_ok c E l (length xs)
  | FStruct gs => exists ws, v = VRec ws /\ ok_fields c gs ws gs ws
  | FArrRec _ gs =>
      exists xs, v = VSeq xs /\ Forall (fun x => exists ws, x = VRec ws /\ ok_fields c gs ws gs ws) xs
  | FVecRec gs _ l _ =>
      exists xs, v = VSeq xs /\ count_ok c E l (length xs) /\
        Forall (fun x => exists ws, x = VRec ws /\ ok_fields c gs ws gs ws) xs
  | FMaybe b p ids =>
      exists args, lookups E ids = Some args /\
        if p args then exists v', v = VSome v' /\ ok_ty c E b v' else v = VNone
  | FUnion g al => exists i v', v = VAlt i v' /\ guide_ok E g i /\ ok_alts c E al i v'
  end
with ok_fields (c : cfg) (F : fields) (V : list val) (gs : fields) (ws : list val)
  {struct gs} : Prop :=
  match gs, ws with
  | FNil, [] => True
  | FCons id t k gs', w :: ws' =>
      match t with
      | FFixed t' n => fixed_ok c F V id k t' n w
      | _ => holds k w /\ ok_ty c (mk_env F V) t w
      end /\ ok_fields c F V gs' ws'
  | _, _ => False
  end
with ok_alts (c : cfg) (E : env) (al : alts) (i : nat) (v : val) {struct al} : Prop :=
  match al, i with
  | ANil, _ => False
  | ACons t k _, O => holds k v /\ ok_ty c E t v
  | ACons _ _ al', S i' => ok_alts c E al' i' v
  end.

Definition writable (c : cfg) (fs : fields) (vs : list val) : Prop := ok_fields c fs vs fs vs.

(** ** What stops a write, in the order the checks are made *)

Definition fixed_fault (c : cfg) (F : fields) (V : list val) (id : ident) (k : constr)
  (t : ctype) (n : nat) (v : val) (r : reason) : Prop :=
  match claims c id F V with
  | z :: l =>
      (~ Forall (eq z) l /\ r = FoundContradictingLength) \/
      (Forall (eq z) l /\ exists s, t = TScalar s /\
        ((~ fits c s n z /\ r = ValidationFailure) \/
         (fits c s n z /\ violates k (VZ (conv s z)) /\ r = ValidationFailure) \/
         (fits c s n z /\ holds k (VZ (conv s z)) /\ ~ confirmed c F V id (VZ (conv s z)) /\
          r = FoundContradictingLength)))
  | [] =>
      match pinned t k with
      | Some w => ~ confirmed c F V id w /\ r = FoundContradictingLength
      | None =>
          (violates k v /\ r = ValidationFailure) \/
          (holds k v /\ ~ confirmed c F V id v /\ r = FoundContradictingLength)
      end
  end.

(** The first record that cannot be written. *)
Definition first_fault (ok fault : val -> Prop) (xs : list val) : Prop :=
  exists before x after, xs = before ++ x :: after /\ Forall ok before /\ fault x.

Fixpoint fault_ty (c : cfg) (E : env) (t : fty) (v : val) (r : reason) {struct t} : Prop :=
  match t with
  | FFixed _ _ => False
  | FVar _ l _ =>
      exists xs, v = VSeq xs /\ ~ count_ok c E l (length xs) /\ r = FoundContradictingLength
  | FStruct gs => exists ws, v = VRec ws /\ fault_fields c gs ws gs ws r
  | FArrRec _ gs =>
      exists xs, v = VSeq xs /\
        first_fault (fun x => exists ws, x = VRec ws /\ ok_fields c gs ws gs ws)
                    (fun x => exists ws, x = VRec ws /\ fault_fields c gs ws gs ws r) xs
  | FVecRec gs _ l _ =>
      exists xs, v = VSeq xs /\
        ((~ count_ok c E l (length xs) /\ r = FoundContradictingLength) \/
         (count_ok c E l (length xs) /\
          first_fault (fun x => exists ws, x = VRec ws /\ ok_fields c gs ws gs ws)
                      (fun x => exists ws, x = VRec ws /\ fault_fields c gs ws gs ws r) xs))
  | FMaybe b p ids =>
      exists args, lookups E ids = Some args /\
        if p args
        then (v = VNone /\ r = ValidationFailure) \/
             (exists v', v = VSome v' /\ fault_ty c E b v' r)
        else (exists v', v = VSome v') /\ r = ValidationFailure
  | FUnion g al =>
      exists i v', v = VAlt i v' /\
        ((~ guide_ok E g i /\ (exists j, selects E g j) /\ r = ValidationFailure) \/
         (~ guide_ok E g i /\ (forall j, ~ selects E g j) /\ r = TypeDeductionFailure) \/
         (guide_ok E g i /\ fault_alts c E al i v' r))
  end
with fault_fields (c : cfg) (F : fields) (V : list val) (gs : fields) (ws : list val)
  (r : reason) {struct gs} : Prop :=
  match gs, ws with
  | FCons id t k gs', w :: ws' =>
      match t with
      | FFixed t' n => fixed_fault c F V id k t' n w r
      | _ => (violates k w /\ r = ValidationFailure) \/
             (holds k w /\ fault_ty c (mk_env F V) t w r)
      end \/
      (match t with
       | FFixed t' n => fixed_ok c F V id k t' n w
       | _ => holds k w /\ ok_ty c (mk_env F V) t w
       end /\ fault_fields c F V gs' ws' r)
  | _, _ => False
  end
with fault_alts (c : cfg) (E : env) (al : alts) (i : nat) (v : val) (r : reason) {struct al} : Prop :=
  match al, i with
  | ANil, _ => False
  | ACons t k _, O =>
      (violates k v /\ r = ValidationFailure) \/ (holds k v /\ fault_ty c E t v r)
  | ACons _ _ al', S i' => fault_alts c E al' i' v r
  end.

(** One field of the list. *)
Definition ok_field (c : cfg) (F : fields) (V : list val) (id : ident) (t : fty) (k : constr)
  (w : val) : Prop :=
  match t with
  | FFixed t' n => fixed_ok c F V id k t' n w
  | _ => holds k w /\ ok_ty c (mk_env F V) t w
  end.

Definition fault_field (c : cfg) (F : fields) (V : list val) (id : ident) (t : fty) (k : constr)
  (w : val) (r : reason) : Prop :=
  match t with
  | FFixed t' n => fixed_fault c F V id k t' n w r
  | _ => (violates k w /\ r = ValidationFailure) \/ (holds k w /\ fault_ty c (mk_env F V) t w r)
  end.

(** The field at which a write fails, and why. *)
Fixpoint stops (c : cfg) (F : fields) (V : list val) (gs : fields) (ws : list val)
  (id : ident) (r : reason) : Prop :=
  match gs, ws with
  | FCons i t k gs', w :: ws' =>
      (i = id /\ fault_field c F V i t k w r) \/
      (ok_field c F V i t k w /\ stops c F V gs' ws' id r)
  | _, _ => False
  end.
