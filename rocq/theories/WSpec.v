(** * What a write should put on the wire

    Independent of the writer: nothing here mentions programs or host order. *)
From Verif Require Export Spec.

(** The element count of a container whose length prefix is the field [id]. *)
Definition sized_by (id : ident) (t : fty) (v : val) : option nat :=
  match t, v with
  | FVar _ (LenField i) _, VSeq l | FVecRec _ _ (LenField i) _, VSeq l =>
      if String.eqb i id then Some (length l) else None
  | _, _ => None
  end.

Definition to_list {A} (o : option A) : list A :=
  match o with Some a => [a] | None => [] end.

(** What a field that is always written says the value of [id] must be: the count
    of a container, or the match value (as a [size_t]) of the alternative held. *)
Definition claim (c : cfg) (id : ident) (t : fty) (v : val) : list Z :=
  match t, v with
  | FUnion (GField i _ cases) _, VAlt j _ =>
      if String.eqb i id
      then map (fun sv => snd sv mod 256 ^ Z.of_nat (c_szw c)) (to_list (nth_error cases j))
      else []
  | _, _ => map Z.of_nat (to_list (sized_by id t v))
  end.

Fixpoint claims (c : cfg) (id : ident) (fs : fields) (vs : list val) : list Z :=
  match fs, vs with
  | FCons _ t _ fs', v :: vs' => claim c id t v ++ claims c id fs' vs'
  | _, _ => []
  end.

(** The count a conditional container says [id] must be, while it is going to be
    written: inside an engaged optional whose predicate holds, or as the held
    alternative. *)
Definition cond_claim (E : env) (id : ident) (t : fty) (v : val) : list Z :=
  match t, v with
  | FMaybe b p ids, VSome v' =>
      match lookups E ids with
      | Some args => if p args then map Z.of_nat (to_list (sized_by id b v')) else []
      | None => []
      end
  | FUnion _ al, VAlt i v' =>
      match a_nth i al with
      | Some (t', _) => map Z.of_nat (to_list (sized_by id t' v'))
      | None => []
      end
  | _, _ => []
  end.

Fixpoint cond_claims (E : env) (id : ident) (fs : fields) (vs : list val) : list Z :=
  match fs, vs with
  | FCons _ t _ fs', v :: vs' => cond_claim E id t v ++ cond_claims E id fs' vs'
  | _, _ => []
  end.

(** The value an [eq] constraint pins a fixed-size field to. *)
Definition pinned (t : ctype) (k : constr) : option val :=
  match t, k with
  | TScalar s, CCmp OEq _ lit => Some (VZ (conv s lit))
  | TFloat w, CCmp OEq _ lit => Some (VF w (fenc w (units lit)))
  | TArr _ _, CArr false lit => Some lit
  | TFixStr _, CStr false lit => Some (VSeq (map VZ lit))
  | _, _ => None
  end.

(** What goes out for one field: the claimed value if the field is a length or a
    discriminant, else the pinned value if it is pinned, else the stored one. *)
Definition slot (claimed : option Z) (k : constr) (t : fty) (v : val) : val :=
  match t, claimed with
  | FFixed (TScalar s) _, Some z => VZ (conv s z)
  | FFixed t' _, _ => match pinned t' k with Some w => w | None => v end
  | _, _ => v
  end.

Fixpoint emit_ty (c : cfg) (t : fty) (v : val) {struct t} : val :=
  match t, v with
  | FStruct fs, VRec vs => VRec (emit_fields c (fun id => hd_error (claims c id fs vs)) fs vs)
  | FArrRec _ fs, VSeq l | FVecRec fs _ _ _, VSeq l =>
      VSeq (map (fun x =>
        match x with
        | VRec vs => VRec (emit_fields c (fun id => hd_error (claims c id fs vs)) fs vs)
        | _ => x
        end) l)
  | FMaybe b _ _, VSome v' => VSome (emit_ty c b v')
  | FUnion _ al, VAlt i v' => VAlt i (emit_alts c al i v')
  | _, _ => v
  end
with emit_fields (c : cfg) (claimed : ident -> option Z) (fs : fields) (vs : list val)
  {struct fs} : list val :=
  match fs, vs with
  | FCons id t k fs', v :: vs' =>
      slot (claimed id) k t (emit_ty c t v) :: emit_fields c claimed fs' vs'
  | _, _ => []
  end
with emit_alts (c : cfg) (al : alts) (i : nat) (v : val) {struct al} : val :=
  match al, i with
  | ANil, _ => v
  | ACons t _ _, O => emit_ty c t v
  | ACons _ _ al', S i' => emit_alts c al' i' v
  end.

(** The struct as it goes out: derived and pinned slots replaced, in nested
    records too. *)
Definition emitted (c : cfg) (fs : fields) (vs : list val) : list val :=
  emit_fields c (fun id => hd_error (claims c id fs vs)) fs vs.

(** Fields whose bytes go out in one piece or not at all: no records inside. *)
Fixpoint atomic (t : fty) : bool :=
  match t with
  | FFixed _ _ | FVar _ _ _ => true
  | FMaybe b _ _ => atomic b
  | FUnion _ al => atomic_alts al
  | _ => false
  end
with atomic_alts (al : alts) : bool :=
  match al with
  | ANil => true
  | ACons t _ al' => atomic t && atomic_alts al'
  end.

(** The unsigned number a byte sequence denotes. *)
Definition number (o : endian) (bs : list Z) : Z :=
  fold_left (fun acc b => 256 * acc + b) (match o with Big => bs | Little => rev bs end) 0.

(** ** Slots the user cannot assign *)

(** The fields a length or a discriminant is taken from. *)
Fixpoint sources (fs : fields) : list ident :=
  match fs with
  | FNil => []
  | FCons _ t _ fs' =>
      match t with
      | FVar _ (LenField id) _ | FVecRec _ _ (LenField id) _ | FUnion (GField id _ _) _ => [id]
      | _ => []
      end ++ sources fs'
  end.

Definition overwritten (F : fields) (id : ident) (t : fty) (k : constr) : bool :=
  match t with
  | FFixed t' _ => memb id (sources F) || match pinned t' k with Some _ => true | None => false end
  | _ => false
  end.

(** Two structs that agree on every slot except overwritten ones, at any depth.  A
    record with a constraint of its own must be the same. *)
Fixpoint same_assignable_ty (t : fty) (v v' : val) {struct t} : Prop :=
  match t, v, v' with
  | FStruct fs, VRec vs, VRec vs' => same_assignable_in fs fs vs vs'
  | FArrRec _ fs, VSeq l, VSeq l' | FVecRec fs _ _ _, VSeq l, VSeq l' =>
      Forall2 (fun x x' =>
        match x, x' with
        | VRec vs, VRec vs' => same_assignable_in fs fs vs vs'
        | _, _ => x = x'
        end) l l'
  | FMaybe b _ _, VSome w, VSome w' => same_assignable_ty b w w'
  | FUnion _ al, VAlt i w, VAlt i' w' => i = i' /\ same_assignable_alts al i w w'
  | _, _, _ => v = v'
  end
with same_assignable_in (F fs : fields) (vs vs' : list val) {struct fs} : Prop :=
  match fs, vs, vs' with
  | FNil, [], [] => True
  | FCons id t k fs', v :: ws, v' :: ws' =>
      (overwritten F id t k = false -> same_assignable_ty t v v' /\ (k = CNone \/ v = v')) /\
      same_assignable_in F fs' ws ws'
  | _, _, _ => vs = vs'
  end
with same_assignable_alts (al : alts) (i : nat) (v v' : val) {struct al} : Prop :=
  match al, i with
  | ANil, _ => v = v'
  | ACons t k _, O => same_assignable_ty t v v' /\ (k = CNone \/ v = v')
  | ACons _ _ al', S i' => same_assignable_alts al' i' v v'
  end.

Definition same_assignable (fs : fields) (vs vs' : list val) : Prop :=
  same_assignable_in fs fs vs vs'.

(** Every user-written callable reads only assignable fields without records. *)
Fixpoint field_of (fs : fields) (id : ident) : option (fty * constr) :=
  match fs with
  | FNil => None
  | FCons i t k fs' => if String.eqb i id then Some (t, k) else field_of fs' id
  end.

Definition reads_assignable (F : fields) (ids : list ident) : bool :=
  forallb (fun id =>
    match field_of F id with
    | Some (t, k) => negb (overwritten F id t k) && atomic t
    | None => true
    end) ids.

Definition len_steady (F : fields) (l : lenspec) : bool :=
  match l with LenField _ => true | LenComp _ ids => reads_assignable F ids end.

Definition guide_steady (F : fields) (g : guide) : bool :=
  match g with
  | GField _ _ _ => true
  | GComp _ _ ids _ => reads_assignable F ids
  | GLadder brs => forallb (fun b => reads_assignable F (snd b)) brs
  end.

Fixpoint steady_ty (F : fields) (t : fty) {struct t} : bool :=
  match t with
  | FFixed _ _ => true
  | FVar _ l _ => len_steady F l
  | FStruct fs | FArrRec _ fs => steady_in fs fs
  | FVecRec fs _ l _ => steady_in fs fs && len_steady F l
  | FMaybe b _ ids => reads_assignable F ids && steady_ty F b
  | FUnion g al => guide_steady F g && steady_alts F al
  end
with steady_in (F fs : fields) {struct fs} : bool :=
  match fs with
  | FNil => true
  | FCons _ t _ fs' => steady_ty F t && steady_in F fs'
  end
with steady_alts (F : fields) (al : alts) {struct al} : bool :=
  match al with
  | ANil => true
  | ACons t _ al' => steady_ty F t && steady_alts F al'
  end.

Definition steady (fs : fields) : bool := steady_in fs fs.

(** ** What it takes to read back what was written *)

(** Match values are values of the discriminant's type, non-negative, within
    [size_t], and told apart by the comparison the reader makes. *)
Fixpoint told_apart (s : sty) (seen cases : list (sty * Z)) : bool :=
  match cases with
  | [] => true
  | sv :: r =>
      forallb (fun e => negb (cxx_eq s (snd sv) (fst e) (snd e))) seen &&
      told_apart s (sv :: seen) r
  end.

Definition cases_ok (c : cfg) (s : sty) (cases : list (sty * Z)) : bool :=
  forallb (fun sv => sc_in s (snd sv) && (0 <=? snd sv) &&
                     (snd sv <? 256 ^ Z.of_nat (c_szw c))) cases &&
  told_apart s [] cases.

(** No floating-point number in the value is a NaN. *)
Fixpoint no_nan (v : val) : bool :=
  match v with
  | VF w z => match fdec w z with FNaN => false | _ => true end
  | VSeq l => forallb no_nan l
  | _ => true
  end.

(** The literal a number is pinned to is a value of the field's type; the literal an
    array is pinned to has no NaN, which is not equal to itself. *)
Definition pin_ok (t : fty) (k : constr) : bool :=
  match t, k with
  | FFixed (TScalar s) _, CCmp OEq _ lit => sc_in s lit
  | FFixed (TFloat w) _, CCmp OEq _ lit => feqb (fdec w (fenc w (units lit))) (FFin (units lit))
  | FFixed (TArr _ _) _, CArr false lit => no_nan lit
  | _, _ => true
  end.

Fixpoint clean_ty (c : cfg) (t : fty) {struct t} : bool :=
  match t with
  | FStruct fs | FArrRec _ fs | FVecRec fs _ _ _ => clean_fields c fs
  | FMaybe b _ _ => clean_ty c b
  | FUnion g al =>
      match g with GField _ s cases => cases_ok c s cases | _ => true end && clean_alts c al
  | _ => true
  end
with clean_fields (c : cfg) (fs : fields) {struct fs} : bool :=
  match fs with
  | FNil => true
  | FCons _ t k fs' => clean_ty c t && pin_ok t k && clean_fields c fs'
  end
with clean_alts (c : cfg) (al : alts) {struct al} : bool :=
  match al with
  | ANil => true
  | ACons t _ al' => clean_ty c t && clean_alts c al'
  end.

(** Every fixed-size field's value survives its declared width, every container is
    within its ceiling. *)
Fixpoint sized_ty (c : cfg) (t : fty) (v : val) {struct t} : Prop :=
  match t, v with
  | FFixed t' n, _ => representable (c_wire c) t' n v
  | FVar elt _ b, VSeq l => within c b (Z.of_nat (csize elt)) (length l)
  | FStruct fs, VRec vs => sized_fields c fs vs
  | FArrRec _ fs, VSeq l =>
      Forall (fun x => match x with VRec vs => sized_fields c fs vs | _ => True end) l
  | FVecRec fs recsz _ b, VSeq l =>
      within c b recsz (length l) /\
      Forall (fun x => match x with VRec vs => sized_fields c fs vs | _ => True end) l
  | FMaybe b _ _, VSome v' => sized_ty c b v'
  | FUnion _ al, VAlt i v' => sized_alts c al i v'
  | _, _ => True
  end
with sized_fields (c : cfg) (fs : fields) (vs : list val) {struct fs} : Prop :=
  match fs, vs with
  | FCons _ t _ fs', v :: vs' => sized_ty c t v /\ sized_fields c fs' vs'
  | _, _ => True
  end
with sized_alts (c : cfg) (al : alts) (i : nat) (v : val) {struct al} : Prop :=
  match al, i with
  | ANil, _ => True
  | ACons t _ _, O => sized_ty c t v
  | ACons _ _ al', S i' => sized_alts c al' i' v
  end.

(** What callables see when writing (the stored slots, [E]) is what they will see
    when reading (the emitted ones, [E']); a constrained field that is not of fixed
    size goes out unchanged. *)
Definition same_view (E E' : env) (ids : list ident) : Prop := lookups E ids = lookups E' ids.

Definition len_sync (E E' : env) (l : lenspec) : Prop :=
  match l with LenField _ => True | LenComp _ ids => same_view E E' ids end.

Definition guide_sync (E E' : env) (g : guide) : Prop :=
  match g with
  | GField _ _ _ => True
  | GComp _ _ ids _ => same_view E E' ids
  | GLadder brs => Forall (fun b => same_view E E' (snd b)) brs
  end.

Fixpoint sync_ty (c : cfg) (E E' : env) (t : fty) (v : val) {struct t} : Prop :=
  match t, v with
  | FVar _ l _, _ => len_sync E E' l
  | FStruct fs, VRec vs => sync_in c (mk_env fs vs) (mk_env fs (emitted c fs vs)) fs vs
  | FArrRec _ fs, VSeq l =>
      Forall (fun x => match x with
        | VRec vs => sync_in c (mk_env fs vs) (mk_env fs (emitted c fs vs)) fs vs
        | _ => True end) l
  | FVecRec fs _ n _, VSeq l =>
      len_sync E E' n /\
      Forall (fun x => match x with
        | VRec vs => sync_in c (mk_env fs vs) (mk_env fs (emitted c fs vs)) fs vs
        | _ => True end) l
  | FMaybe b _ ids, VSome v' => same_view E E' ids /\ sync_ty c E E' b v'
  | FMaybe b _ ids, _ => same_view E E' ids
  | FUnion g al, VAlt i v' => guide_sync E E' g /\ sync_alts c E E' al i v'
  | _, _ => True
  end
with sync_in (c : cfg) (E E' : env) (fs : fields) (vs : list val) {struct fs} : Prop :=
  match fs, vs with
  | FCons _ t k fs', v :: vs' =>
      sync_ty c E E' t v /\ (k = CNone \/ emit_ty c t v = v) /\ sync_in c E E' fs' vs'
  | _, _ => True
  end
with sync_alts (c : cfg) (E E' : env) (al : alts) (i : nat) (v : val) {struct al} : Prop :=
  match al, i with
  | ANil, _ => True
  | ACons t k _, O => sync_ty c E E' t v /\ (k = CNone \/ emit_ty c t v = v)
  | ACons _ _ al', S i' => sync_alts c E E' al' i' v
  end.

Definition in_sync (c : cfg) (fs : fields) (vs : list val) : Prop :=
  sync_in c (mk_env fs vs) (mk_env fs (emitted c fs vs)) fs vs.

(** No constraint on a record, a container of records, or a field holding them. *)
Fixpoint free_ty (t : fty) : bool :=
  match t with
  | FStruct fs | FArrRec _ fs | FVecRec fs _ _ _ => free_fields fs
  | FMaybe b _ _ => free_ty b
  | FUnion _ al => free_alts al
  | _ => true
  end
with free_fields (fs : fields) : bool :=
  match fs with
  | FNil => true
  | FCons _ t k fs' =>
      free_ty t && (match k with CNone => true | _ => atomic t end) && free_fields fs'
  end
with free_alts (al : alts) : bool :=
  match al with
  | ANil => true
  | ACons t k al' =>
      free_ty t && (match k with CNone => true | _ => atomic t end) && free_alts al'
  end.

(** ** What it takes to write back what was read *)

(** No low-order byte is lost: the wire is little endian or the field is declared
    as wide as its type. *)
Definition whole (c : cfg) (s : sty) (n : nat) : bool :=
  match c_wire c with Little => true | Big => Nat.eqb n (ssize s) end.

Definition unsigned (s : sty) : bool := match s with SInt _ true => false | _ => true end.

(** The field a length is taken from is no wider than [size_t] and unsigned, unless
    the container's ceiling keeps negative lengths out; match values are
    non-negative values of the discriminant's type within [size_t]. *)
Definition length_ok (c : cfg) (s : sty) (n : nat) (b : option Z) : bool :=
  (unsigned s || (2 * ceiling_of c b <? 256 ^ Z.of_nat (c_szw c))) &&
  Nat.leb (ssize s) (c_szw c) && whole c s n.

Definition source_ok (c : cfg) (F : fields) (t : fty) : bool :=
  match t with
  | FVar _ (LenField id) b | FVecRec _ _ (LenField id) b =>
      match field_of F id with
      | Some (FFixed (TScalar s) n, _) => length_ok c s n b
      | _ => true
      end
  | FUnion (GField id s cases) _ =>
      match field_of F id with
      | Some (FFixed (TScalar _) n, _) =>
          whole c s n &&
          forallb (fun sv => sc_in s (snd sv) && (0 <=? snd sv) &&
                             (snd sv <? 256 ^ Z.of_nat (c_szw c))) cases
      | _ => true
      end
  | _ => true
  end.

(** Arrays of floating-point numbers, and those numbers. *)
Fixpoint has_float (t : ctype) : bool :=
  match t with TFloat _ => true | TArr _ t' => has_float t' | _ => false end.

(** Only one value of the field's type satisfies the [eq]: the literal is a value of
    the field's type, compared in a type at least as wide and not [bool]; a string
    literal has no NUL before its terminator; an array is not of floating-point
    numbers, whose two zeros are equal; a floating-point number, which is compared
    without its fraction, does not count. *)
Definition pin_exact (t : fty) (k : constr) : bool :=
  match t, k with
  | FFixed (TScalar s) _, CCmp OEq (SInt w _) lit => sc_in s lit && Nat.leb (ssize s) w
  | FFixed (TScalar s) _, CCmp OEq SBool _ => false
  | FFixed (TFloat _) _, CCmp OEq _ _ => false
  | FFixed (TFixStr _) _, CStr false lit => forallb (fun z => negb (z =? 0)) (removelast lit)
  | FFixed (TArr _ t') _, CArr false _ => negb (has_float t')
  | _, _ => true
  end.

Fixpoint reversible_ty (c : cfg) (t : fty) {struct t} : bool :=
  match t with
  | FStruct fs | FArrRec _ fs | FVecRec fs _ _ _ => reversible_in c fs fs
  | FMaybe b _ _ => reversible_ty c b
  | FUnion _ al => reversible_alts c al
  | _ => true
  end
with reversible_in (c : cfg) (F fs : fields) {struct fs} : bool :=
  match fs with
  | FNil => true
  | FCons id t k fs' =>
      reversible_ty c t && source_ok c F t && (memb id (sources F) || pin_exact t k) &&
      reversible_in c F fs'
  end
with reversible_alts (c : cfg) (al : alts) {struct al} : bool :=
  match al with
  | ANil => true
  | ACons t _ al' => reversible_ty c t && reversible_alts c al'
  end.

Definition reversible (c : cfg) (fs : fields) : bool := reversible_in c fs fs.
