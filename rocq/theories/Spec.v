(** * What a message is: well-formed schemas, valid structs, their bytes

    Independent of the reader and the writer: nothing here mentions streams,
    programs or host byte order. *)
From Verif Require Export Schema.

(** ** The bytes of a value *)

(** A scalar on the wire: its two's complement bytes, least significant first in
    little endian, most significant first in big endian. *)
Definition wire_scalar (o : endian) (s : sty) (z : Z) : list Z :=
  match o with
  | Little => le_enc (ssize s) (sc_bits s z)
  | Big => rev (le_enc (ssize s) (sc_bits s z))
  end.

Fixpoint enc_ct (o : endian) (t : ctype) (v : val) {struct t} : list Z :=
  match t, v with
  | TScalar s, VZ z => wire_scalar o s z
  | TArr _ t', VSeq l => flat_map (enc_ct o t') l
  | TFixStr _, VSeq l => map (fun x => match x with VZ z => z | _ => 0 end) l
  | TFloat w, VF _ z => wire_scalar o (SInt w false) z
  | _, _ => []
  end.

(** A fixed-size field occupies the first [n] bytes of its value's
    representation; records are their fields in order; an absent optional is
    nothing; a variant is its held alternative. *)
Fixpoint enc_ty (o : endian) (t : fty) (v : val) {struct t} : list Z :=
  match t, v with
  | FFixed t' n, _ => firstn n (enc_ct o t' v)
  | FVar elt _ _, VSeq l => flat_map (enc_ct o elt) l
  | FStruct fs, VRec vs => enc_fields o fs vs
  | FArrRec _ fs, VSeq l | FVecRec fs _ _ _, VSeq l =>
      flat_map (fun x => match x with VRec vs => enc_fields o fs vs | _ => [] end) l
  | FMaybe b _ _, VSome v' => enc_ty o b v'
  | FUnion _ al, VAlt i v' => enc_alts o al i v'
  | _, _ => []
  end
with enc_fields (o : endian) (fs : fields) (vs : list val) {struct fs} : list Z :=
  match fs, vs with
  | FCons _ t _ fs', v :: vs' => enc_ty o t v ++ enc_fields o fs' vs'
  | _, _ => []
  end
with enc_alts (o : endian) (al : alts) (i : nat) (v : val) {struct al} : list Z :=
  match al, i with
  | ANil, _ => []
  | ACons t _ _, O => enc_ty o t v
  | ACons _ _ al', S i' => enc_alts o al' i' v
  end.

(** ** Well-typed values *)

Fixpoint ct_ok (t : ctype) (v : val) {struct t} : Prop :=
  match t, v with
  | TScalar s, VZ z => sc_in s z = true
  | TArr n t', VSeq l => length l = n /\ Forall (ct_ok t') l
  | TFixStr n, VSeq l =>
      length l = S n /\ Forall (fun x => exists z, x = VZ z /\ byte_ok z) l
  | TFloat w, VF u z => u = w /\ 0 <= z < pow256 w
  | _, _ => False
  end.

(** Representable in [n] bytes: what a narrower field leaves out is zero. *)
Definition representable (o : endian) (t : ctype) (n : nat) (v : val) : Prop :=
  Forall (fun b => b = 0) (skipn n (enc_ct o t v)).

(** ** Constraints, mathematically *)

Definition cmp_holds (o : cmp) (a b : Z) : Prop :=
  match o with
  | OEq => a = b | ONeq => a <> b | OLt => a < b
  | OGt => a > b | OLte => a <= b | OGte => a >= b
  end.

(** The numbers [a] and [b] are equal; [a] is less than [b]. *)
Definition fequal (a b : fval) : Prop := a = b /\ a <> FNaN.

Inductive fless : fval -> fval -> Prop :=
| fl_fin : forall x y, x < y -> fless (FFin x) (FFin y)
| fl_low : forall x, fless (FInf true) (FFin x)
| fl_high : forall x, fless (FFin x) (FInf false)
| fl_inf : fless (FInf true) (FInf false).

Definition fcmp_holds (o : cmp) (a b : fval) : Prop :=
  match o with
  | OEq => fequal a b | ONeq => ~ fequal a b | OLt => fless a b
  | OGt => fless b a | OLte => fless a b \/ fequal a b | OGte => fless b a \/ fequal b a
  end.

(** Arrays of equal numbers. *)
Inductive equal_values : val -> val -> Prop :=
| ev_int : forall z, equal_values (VZ z) (VZ z)
| ev_float : forall w a b, fequal (fdec w a) (fdec w b) -> equal_values (VF w a) (VF w b)
| ev_seq : forall l m, Forall2 equal_values l m -> equal_values (VSeq l) (VSeq m).

(** The number a comparison with an integer literal of type [s] is about: the field's
    value converted; a floating-point one without its fraction, if [s] has that number. *)
Definition whole_part (n z : Z) : Prop :=
  0 <= n * z /\ Z.abs z * 2 ^ 1074 <= Z.abs n < (Z.abs z + 1) * 2 ^ 1074.
Inductive int_of (s : sty) : val -> Z -> Prop :=
| io_int : forall z, int_of s (VZ z) (conv s z)
| io_float : forall u y n z, s <> SBool -> fdec u y = FFin n -> whole_part n z -> sc_in s z = true ->
    int_of s (VF u y) z
| io_false : forall u y, s = SBool -> fdec u y = FFin 0 -> int_of s (VF u y) 0
| io_true : forall u y, s = SBool -> fdec u y <> FFin 0 -> int_of s (VF u y) 1.

(** The same for a floating-point literal of [w] bytes ([fround]: C101). *)
Inductive float_of (w : nat) : val -> fval -> Prop :=
| fo_int : forall z, float_of w (VZ z) (fround w (FFin (units z)))
| fo_wide : forall u y, (u <= w)%nat -> float_of w (VF u y) (fdec u y)
| fo_narrow : forall u y, (w < u)%nat -> float_of w (VF u y) (fround w (fdec u y)).

(** [s] is the C string stored in the chars [a]. *)
Definition c_string (a s : list Z) : Prop :=
  ~ In 0 s /\ exists rest, a = s ++ 0 :: rest.

Definition holds (k : constr) (v : val) : Prop :=
  match k with
  | CNone => True
  | CCmp o s lit => exists z, int_of s v z /\ cmp_holds o z lit
  | CAny s lits => exists z, int_of s v z /\ In z lits
  | CArr neg lit => (exists l, v = VSeq l) /\ (if neg then ~ equal_values v lit else equal_values v lit)
  | CStr neg lit =>
      exists a x y, v = VSeq (map VZ a) /\ c_string a x /\ c_string lit y /\
                    (if neg then x <> y else x = y)
  | CStrAny lits =>
      exists a x pre lit post, v = VSeq (map VZ a) /\ c_string a x /\
        lits = pre ++ lit :: post /\ c_string lit x /\
        Forall (fun m => exists y, c_string m y /\ y <> x) pre
  | CFCmp o w lit => exists x, float_of w v x /\ fcmp_holds o x (fdec w lit)
  | CFAny w lits => exists x, float_of w v x /\ Exists (fun l => fequal x (fdec w l)) lits
  | CFun f => f v = true
  end.

(** ** Valid structs

    [E] holds the values of all the fields of the enclosing struct. *)

Definition len_is (c : cfg) (E : env) (l : lenspec) (n : nat) : Prop :=
  match l with
  | LenField id =>
      exists z, lookup E id = Some (VZ z) /\ Z.of_nat n = z mod 256 ^ Z.of_nat (c_szw c)
  | LenComp f ids =>
      exists vs, lookups E ids = Some vs /\ Z.of_nat n = f vs mod 256 ^ Z.of_nat (c_szw c)
  end.

Definition within (c : cfg) (b : option Z) (esz : Z) (n : nat) : Prop :=
  Z.of_nat n * esz <=
  match b with Some m => m | None => c_dmax c end mod 256 ^ Z.of_nat (c_szw c).

(** The allocation ceiling in force for a container, in bytes, as a [size_t]. *)
Definition ceiling_of (c : cfg) (b : option Z) : Z :=
  match b with Some m => m | None => c_dmax c end mod 256 ^ Z.of_nat (c_szw c).

(** Case [i] is the first whose value equals the scrutinee. *)
Definition first_case (s : sty) (z : Z) (cases : list (sty * Z)) (i : nat) : Prop :=
  (exists sv, nth_error cases i = Some sv /\ cxx_eq s z (fst sv) (snd sv) = true) /\
  (forall j sv, (j < i)%nat -> nth_error cases j = Some sv ->
                cxx_eq s z (fst sv) (snd sv) = false).

Definition selects (E : env) (g : guide) (i : nat) : Prop :=
  match g with
  | GField id s cases => exists z, lookup E id = Some (VZ z) /\ first_case s z cases i
  | GComp f r ids cases =>
      exists vs, lookups E ids = Some vs /\ first_case r (conv r (f vs)) cases i
  | GLadder brs =>
      (exists p ids vs, nth_error brs i = Some (p, ids) /\
                        lookups E ids = Some vs /\ p vs = true) /\
      (forall j p ids, (j < i)%nat -> nth_error brs j = Some (p, ids) ->
                       exists vs, lookups E ids = Some vs /\ p vs = false)
  end.

Fixpoint valid_ty (c : cfg) (E : env) (t : fty) (v : val) {struct t} : Prop :=
  match t with
  | FFixed t' n => ct_ok t' v /\ representable (c_wire c) t' n v
  | FVar elt l b =>
      exists xs, v = VSeq xs /\ Forall (ct_ok elt) xs /\
                 len_is c E l (length xs) /\
                 within c b (Z.of_nat (csize elt)) (length xs)
  | FStruct fs => exists vs, v = VRec vs /\ valid_fields c (mk_env fs vs) fs vs
  | FArrRec n fs =>
      exists xs, v = VSeq xs /\ length xs = n /\
        Forall (fun x => exists vs, x = VRec vs /\ valid_fields c (mk_env fs vs) fs vs) xs
  | FVecRec fs recsz l b =>
      exists xs, v = VSeq xs /\
        Forall (fun x => exists vs, x = VRec vs /\ valid_fields c (mk_env fs vs) fs vs) xs /\
        len_is c E l (length xs) /\ within c b recsz (length xs)
  | FMaybe b p ids =>
      exists args, lookups E ids = Some args /\
        match p args with
        | true => exists v', v = VSome v' /\ valid_ty c E b v'
        | false => v = VNone
        end
  | FUnion g al =>
      exists i v', v = VAlt i v' /\ selects E g i /\ valid_alts c E al i v'
  end
with valid_fields (c : cfg) (E : env) (fs : fields) (vs : list val) {struct fs} : Prop :=
  match fs, vs with
  | FNil, [] => True
  | FCons _ t k fs', v :: vs' =>
      valid_ty c E t v /\ holds k v /\ valid_fields c E fs' vs'
  | _, _ => False
  end
with valid_alts (c : cfg) (E : env) (al : alts) (i : nat) (v : val) {struct al} : Prop :=
  match al, i with
  | ANil, _ => False
  | ACons t k _, O => valid_ty c E t v /\ holds k v
  | ACons _ _ al', S i' => valid_alts c E al' i' v
  end.

(** The struct [vs] is a valid instance of the schema [fs]. *)
Definition valid (c : cfg) (fs : fields) (vs : list val) : Prop :=
  valid_fields c (mk_env fs vs) fs vs.

(** ** Well-formed schemas: names are unique, dependencies name earlier fields,
    no type is empty, scalars are declared at most as wide as their type, arrays
    and strings exactly as wide. *)

Definition memb (id : ident) (l : list ident) : bool := existsb (String.eqb id) l.

Definition all_in (ids seen : list ident) : bool := forallb (fun id => memb id seen) ids.

Fixpoint ct_wf (t : ctype) : bool :=
  match t with
  | TScalar s => Nat.ltb 0 (ssize s)
  | TArr n t' => Nat.ltb 0 n && ct_wf t'
  | TFixStr _ => true
  | TFloat w => match ffmt w with Some _ => true | None => false end
  end.

Definition len_wf (seen : list ident) (l : lenspec) : bool :=
  match l with LenField id => memb id seen | LenComp _ ids => all_in ids seen end.

Definition guide_wf (seen : list ident) (g : guide) : bool :=
  match g with
  | GField id _ _ => memb id seen
  | GComp _ _ ids _ => all_in ids seen
  | GLadder brs => forallb (fun b => all_in (snd b) seen) brs
  end.

Fixpoint wf_ty (seen : list ident) (t : fty) {struct t} : bool :=
  match t with
  | FFixed t' n =>
      ct_wf t' && match t' with TScalar _ | TFloat _ => Nat.leb n (csize t') | _ => Nat.eqb n (csize t') end
  | FVar elt l _ => ct_wf elt && len_wf seen l
  | FStruct fs => wf_fields [] fs
  | FArrRec _ fs => wf_fields [] fs
  | FVecRec fs recsz l _ => wf_fields [] fs && (0 <? recsz) && len_wf seen l
  | FMaybe b _ ids => all_in ids seen && wf_ty seen b
  | FUnion g al => guide_wf seen g && wf_alts seen al
  end
with wf_fields (seen : list ident) (fs : fields) {struct fs} : bool :=
  match fs with
  | FNil => true
  | FCons id t _ fs' => negb (memb id seen) && wf_ty seen t && wf_fields (id :: seen) fs'
  end
with wf_alts (seen : list ident) (al : alts) {struct al} : bool :=
  match al with
  | ANil => true
  | ACons t _ al' => wf_ty seen t && wf_alts seen al'
  end.

Definition wf (fs : fields) : bool := wf_fields [] fs.

(** ** Allocating fields: element size and declared bound of every container, at
    any depth. *)

Fixpoint containers (t : fty) : list (Z * option Z) :=
  match t with
  | FFixed _ _ => []
  | FVar elt _ b => [(Z.of_nat (csize elt), b)]
  | FStruct fs | FArrRec _ fs => containers_fields fs
  | FVecRec fs recsz _ b => (recsz, b) :: containers_fields fs
  | FMaybe b _ _ => containers b
  | FUnion _ al => containers_alts al
  end
with containers_fields (fs : fields) : list (Z * option Z) :=
  match fs with
  | FNil => []
  | FCons _ t _ fs' => containers t ++ containers_fields fs'
  end
with containers_alts (al : alts) : list (Z * option Z) :=
  match al with
  | ANil => []
  | ACons t _ al' => containers t ++ containers_alts al'
  end.

(** ** Constraint satisfaction alone: every constraint of the schema, at every
    depth, holds of the corresponding value. *)

Fixpoint sat_ty (t : fty) (v : val) {struct t} : Prop :=
  match t, v with
  | FStruct fs, VRec vs => sat_fields fs vs
  | FArrRec _ fs, VSeq xs | FVecRec fs _ _ _, VSeq xs =>
      Forall (fun x => match x with VRec vs => sat_fields fs vs | _ => False end) xs
  | FMaybe b _ _, VSome v' => sat_ty b v'
  | FUnion _ al, VAlt i v' => sat_alts al i v'
  | _, _ => True
  end
with sat_fields (fs : fields) (vs : list val) {struct fs} : Prop :=
  match fs, vs with
  | FNil, [] => True
  | FCons _ t k fs', v :: vs' => holds k v /\ sat_ty t v /\ sat_fields fs' vs'
  | _, _ => False
  end
with sat_alts (al : alts) (i : nat) (v : val) {struct al} : Prop :=
  match al, i with
  | ANil, _ => False
  | ACons t k _, O => holds k v /\ sat_ty t v
  | ACons _ _ al', S i' => sat_alts al' i' v
  end.

(** ** Fixed-layout schemas and their size *)

Fixpoint layout (t : fty) : option nat :=
  match t with
  | FFixed _ n => Some n
  | FStruct fs => layout_fields fs
  | FArrRec n fs => match layout_fields fs with Some m => Some (n * m)%nat | None => None end
  | _ => None
  end
with layout_fields (fs : fields) : option nat :=
  match fs with
  | FNil => Some O
  | FCons _ t _ fs' =>
      match layout t, layout_fields fs' with
      | Some a, Some b => Some (a + b)%nat
      | _, _ => None
      end
  end.

(** The scalars of an array of any shape, in memory order. *)
Fixpoint leaf (t : ctype) : option sty :=
  match t with TScalar s => Some s | TArr _ t' => leaf t' | TFixStr _ => None | TFloat w => Some (SInt w false) end.

Fixpoint flatten (t : ctype) (v : val) : list Z :=
  match t, v with
  | TScalar _, VZ z => [z]
  | TFloat _, VF _ z => [z]
  | TArr _ t', VSeq l => flat_map (flatten t') l
  | _, _ => []
  end.

(** Where the byte of weight 256^i of a [w]-byte scalar sits. *)
Definition byte_pos (o : endian) (w i : nat) : nat :=
  match o with Little => i | Big => (w - 1 - i)%nat end.

(** ** The largest single request a reader of the schema can make: the widest
    fixed-size field or container ceiling, at any depth. *)

Fixpoint widest (c : cfg) (t : fty) : Z :=
  match t with
  | FFixed _ n => Z.of_nat n
  | FVar _ _ b => match b with Some m => m | None => c_dmax c end mod 256 ^ Z.of_nat (c_szw c)
  | FStruct fs | FArrRec _ fs | FVecRec fs _ _ _ => widest_fields c fs
  | FMaybe b _ _ => widest c b
  | FUnion _ al => widest_alts c al
  end
with widest_fields (c : cfg) (fs : fields) : Z :=
  match fs with
  | FNil => 0
  | FCons _ t _ fs' => Z.max (widest c t) (widest_fields c fs')
  end
with widest_alts (c : cfg) (al : alts) : Z :=
  match al with
  | ANil => 0
  | ACons t _ al' => Z.max (widest c t) (widest_alts c al')
  end.

(** The scalars of a field that holds scalars: a scalar, an array of any shape,
    a vector of either. *)
Definition scalars_of (t : fty) (v : val) : option (sty * list Z) :=
  match t, v with
  | FFixed t' n, _ =>
      if Nat.eqb n (csize t') then option_map (fun s => (s, flatten t' v)) (leaf t') else None
  | FVar elt _ _, VSeq l => option_map (fun s => (s, flat_map (flatten elt) l)) (leaf elt)
  | _, _ => None
  end.
