(** * Vocabulary for stating what the selection of specialisations guarantees *)
From Verif Require Export Kinds.
Local Open Scope list_scope.

(** Numbers, and arrays of one form over numbers, however deep. *)
Inductive number : cxx -> Prop :=
| num_int : forall s, number (XInt s)
| num_float : forall w, number (XFloat w).

Inductive std_nest : cxx -> Prop :=
| sn_num : forall t n, number t -> std_nest (XArray t n)
| sn_arr : forall t n, std_nest t -> std_nest (XArray t n).

Inductive c_nest : cxx -> Prop :=
| cn_num : forall t n, number t -> c_nest (XCArray t n)
| cn_arr : forall t n, c_nest t -> c_nest (XCArray t n).

(** What the elements of a descriptor's container have to be for the field to have a
    reader and a writer. *)
Definition supported (d : desc) : Prop :=
  match d with
  | FixedArrayField t _ => number t \/ std_nest t
  | CArrField t _ => number t \/ c_nest t
  | VecField t => number t \/ std_nest t \/ exists fs, t = XRecord fs
  | _ => True
  end.

(** [leaf t e]: the values of [t] are made of values of [e]. *)
Inductive leaf : cxx -> cxx -> Prop :=
| leaf_int : forall s, leaf (XInt s) (XInt s)
| leaf_float : forall w, leaf (XFloat w) (XFloat w)
| leaf_arr : forall t n e, leaf t e -> leaf (XArray t n) e
| leaf_carr : forall t n e, leaf t e -> leaf (XCArray t n) e
| leaf_vec : forall t e, leaf t e -> leaf (XVector t) e.

(** The type has no floating-point number in it. *)
Definition no_floats (t : cxx) : Prop := forall w, ~ leaf t (XFloat w).

(** The specialisation a field of the model is read and written by. *)
Definition kind_of (t : fty) : kind :=
  match t with
  | FFixed _ _ => KFixed
  | FVar _ _ _ => KVariable
  | FArrRec _ _ => KArrayOfRecords
  | FVecRec _ _ _ _ => KVectorOfRecords
  | FStruct _ => KStruct
  | FMaybe _ _ _ => KOptional
  | FUnion _ _ => KUnion
  end.

(** The descriptor of [Static.v] a descriptor with its type stands for; none for the
    literals ([magic_*]) and for containers of unsupported elements. *)
Definition described (sgn : bool) (recsz : fields -> Z) (other : cxx -> nat) (d : desc)
  : option descriptor :=
  match d with
  | BasicField (XInt s) => Some (DBasic s)
  | FixedArrayField t n | CArrField t n => option_map (DArray n) (to_ctype t)
  | ArrayOfRecords (XRecord fs) n => Some (DArrRec n fs)
  | FixedStringField n => Some (DFixString n)
  | CStrField n => Some (DArray (n + 1) (TScalar (SInt 1 sgn)))
  | VecField (XRecord fs) | VectorOfRecords (XRecord fs) =>
      Some (DVecRec (other (XVector (XRecord fs))) (recsz fs) fs)
  | VecField t => option_map (DVec (other (XVector t))) (to_ctype t)
  | StrField => Some (DVec (other XString) (TScalar (SInt 1 sgn)))
  | StructField (XRecord fs) => Some (DStruct fs)
  | _ => None
  end.

(** A C array of C arrays. *)
Inductive nested_c_array : cxx -> Prop :=
| nca : forall t n m, nested_c_array (XCArray (XCArray t n) m).

(** Floating-point types are wider than a byte. *)
Definition wide_floats (t : cxx) : Prop := forall w, leaf t (XFloat w) -> (1 < w)%nat.

(** The descriptor a type tag is named after. *)
Definition mirror (d : tag) : desc :=
  match d with
  | AsTrivial t => BasicField t
  | AsStruct t => StructField t
  | AsFixedArr t n => FixedArrayField t n
  | AsFixedString n => FixedStringField n
  | AsVec t => VecField t
  | AsString => StrField
  | AsArrOfRecords t n => ArrayOfRecords t n
  | AsVecOfRecords t => VectorOfRecords t
  end.

(** Integral types where the tag stands for one number, numbers where it holds several. *)
Definition integral (t : cxx) : Prop := exists s, t = XInt s.
Definition tag_elements (d : tag) : Prop :=
  match d with
  | AsTrivial t => integral t
  | AsFixedArr t _ | AsVec t => number t
  | _ => True
  end.
