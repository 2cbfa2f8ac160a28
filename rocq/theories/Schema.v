(** * Schemas and the values they describe *)
From Coq Require String.
From Verif Require Export CTypes.

(** Field ids, as [as_sv] sees them (include/api/struct_field_list.hpp:23-26):
    the characters up to the first NUL. *)
Definition ident := String.string.

(** Constant-size types ([field_containable],
    include/lib/s2s_traits/type_traits.hpp:86-92,191-192): integral scalars,
    [std::array] or C arrays (nested), [fixed_string<N>], floating-point scalars of
    [w] bytes.  C arrays and [std::array] are not distinguished.  A wider-than-a-byte
    floating-point type in foreign order does not compile ([std::byteswap],
    byte_order.hpp:14-25); Kinds.v has that, and the functions of Read.v and Write.v
    treat it there like the unsigned integer of the same width. *)
Inductive ctype :=
| TScalar (s : sty)
| TArr (n : nat) (t : ctype)
| TFixStr (n : nat)
| TFloat (w : nat).

(** sizeof.  [fixed_string<N>] holds N+1 chars
    (include/lib/containers/fixed_string.hpp:12-14). *)
Fixpoint csize (t : ctype) : nat :=
  match t with
  | TScalar s => ssize s
  | TArr n t' => n * csize t'
  | TFixStr n => S n
  | TFloat w => w
  end.

(** Values held in the fields of a struct.
    [VZ]: integral scalar; [VF w z]: floating-point scalar of [w] bytes with bit
    pattern [z]; [VSeq]: array, string, vector, array/vector of records;
    [VRec]: a [struct_field_list] (its fields' values in declaration order);
    [VNone]/[VSome]: [std::optional]; [VAlt i v]: [std::variant] holding
    alternative [i].
    In the code: include/field/field.hpp:29. *)
Inductive val :=
| VZ (z : Z)
| VSeq (l : list val)
| VRec (l : list val)
| VNone
| VSome (v : val)
| VAlt (i : nat) (v : val)
| VF (w : nat) (z : Z).

(** Constraints (include/field_validation/field_value_constraints.hpp:42-125).
    The literal of a comparison has its own type: [eq{0xdead}] is an [eq<int>],
    and the field's value is converted to that type by the call
    [constraint_checker(field.value)] because [operator()] takes [const T&].
    [CArr neg v]: [eq]/[neq] on an array; [CStr neg cs]: [eq]/[neq] on a
    [fixed_string] whose N+1 chars (terminator included) are [cs];
    [CStrAny]: [any_of] over [fixed_string]s; [CFCmp], [CFAny]: the comparisons and
    [any_of] with literals of a floating-point type of [w] bytes, as bit patterns;
    [CFun]: any user-written
    constraint.  Not here: [range], [is_in_open_range],
    [is_in_closed_range] (127-185), which cannot be instantiated; see Ranges.v. *)
Inductive cmp := OEq | ONeq | OLt | OGt | OLte | OGte.

(** include/field_validation/field_value_constraints.hpp:42-125. *)
Inductive constr :=
| CNone
| CCmp (o : cmp) (s : sty) (lit : Z)
| CAny (s : sty) (lits : list Z)
| CArr (neg : bool) (lit : val)
| CStr (neg : bool) (lit : list Z)
| CStrAny (lits : list (list Z))
| CFCmp (o : cmp) (w : nat) (lit : Z)
| CFAny (w : nat) (lits : list Z)
| CFun (f : val -> bool).

(** Where a container's element count comes from
    (include/field_size/field_size.hpp:51-72): [len_from_field<id>], or
    [len_from_fields<f, ids...>].  A callable is a function of the values of the
    fields it names; its result is the number before conversion to size_t. *)
Inductive lenspec :=
| LenField (id : ident)
| LenComp (f : list val -> Z) (ids : list ident).

(** How a variance selects its alternative
    (include/type_deduction/type/type_impl.hpp:19-46): a [type_switch] on a field,
    a [type_switch] on a computed value of type [r], or a ladder.  Match values
    carry their own types ([match_case<auto v, ...>], match_case.hpp:9-13).
    In [GField id s cases], [s] is the type of the field [id]; the compiler looks
    it up, the model records it and Typing.v requires it to be that type. *)
Inductive guide :=
| GField (id : ident) (s : sty) (cases : list (sty * Z))
| GComp (f : list val -> Z) (r : sty) (ids : list ident) (cases : list (sty * Z))
| GLadder (brs : list ((list val -> bool) * list ident)).

(** Field types (include/field/field.hpp:15-121,
    include/api/field_descriptors.hpp:27-103).
    [FFixed t n]: a fixed-size field of type [t] declared [n] bytes wide;
    [FVar]: [std::vector] / [std::string] with optional [max_bytes];
    [FStruct], [FArrRec], [FVecRec]: records; [FVecRec] carries
    [sizeof(record)], which is ABI dependent and arbitrary here;
    [FMaybe]: [maybe] (its base has no constraint of its own: the alias admits
    only [no_variance_field_like] bases, field.hpp:43-63);
    [FUnion]: [variance], alternatives with their own constraints
    (type_tags.hpp:45-117). *)
Inductive fty :=
| FFixed (t : ctype) (n : nat)
| FVar (elt : ctype) (l : lenspec) (b : option Z)
| FStruct (fs : fields)
| FArrRec (n : nat) (fs : fields)
| FVecRec (fs : fields) (recsz : Z) (l : lenspec) (b : option Z)
| FMaybe (base : fty) (p : list val -> bool) (ids : list ident)
| FUnion (g : guide) (al : alts)
with fields :=
| FNil
| FCons (id : ident) (t : fty) (c : constr) (fs : fields)
with alts :=
| ANil
| ACons (t : fty) (c : constr) (al : alts).

Scheme fty_mut := Induction for fty Sort Prop
with fields_mut := Induction for fields Sort Prop
with alts_mut := Induction for alts Sort Prop.
Combined Scheme schema_mutind from fty_mut, fields_mut, alts_mut.

(** include/api/struct_field_list.hpp:17-21, [fields::field_id...]. *)
Fixpoint f_ids (fs : fields) : list ident :=
  match fs with FNil => [] | FCons id _ _ fs' => id :: f_ids fs' end.

(** [sizeof...(fields)], include/field_list/field_list.hpp. *)
Fixpoint f_len (fs : fields) : nat :=
  match fs with FNil => O | FCons _ _ _ fs' => S (f_len fs') end.

(** The pack of one list followed by that of another (include/api/struct_field_list.hpp:28-61). *)
Fixpoint f_app (fs gs : fields) : fields :=
  match fs with FNil => gs | FCons id t c fs' => FCons id t c (f_app fs' gs) end.

(** include/field/field.hpp:116 [variant_size]. *)
Fixpoint a_len (al : alts) : nat :=
  match al with ANil => O | ACons _ _ al' => S (a_len al') end.

(** include/field/field.hpp:90-104, one choice. *)
Fixpoint a_nth (i : nat) (al : alts) : option (fty * constr) :=
  match al, i with
  | ANil, _ => None
  | ACons t c _, O => Some (t, c)
  | ACons _ _ al', S i' => a_nth i' al'
  end.

(** A struct under construction, or an existing one: field ids with values.
    Lookup by name models [field_value_of]
    (include/field_list/field_list.hpp:112-118). *)
Definition env := list (ident * val).

(** include/field_list/field_list.hpp:112-118. *)
Fixpoint lookup (e : env) (id : ident) : option val :=
  match e with
  | [] => None
  | (i, v) :: e' => if String.eqb i id then Some v else lookup e' id
  end.

(** include/cast/struct_cast_impl.hpp:28-30: the field is assigned. *)
Fixpoint update (e : env) (id : ident) (v : val) : env :=
  match e with
  | [] => []
  | (i, w) :: e' => if String.eqb i id then (i, v) :: e' else (i, w) :: update e' id v
  end.

(** include/field_compute/computation_from_fields_impl.hpp:52-63. *)
Fixpoint lookups (e : env) (ids : list ident) : option (list val) :=
  match ids with
  | [] => Some []
  | id :: ids' =>
      match lookup e id, lookups e ids' with
      | Some v, Some vs => Some (v :: vs)
      | _, _ => None
      end
  end.

(** include/field_list/field_list.hpp:56-118: ids with values. *)
Fixpoint mk_env (fs : fields) (vs : list val) : env :=
  match fs, vs with
  | FCons id _ _ fs', v :: vs' => (id, v) :: mk_env fs' vs'
  | _, _ => []
  end.

(** Value initialisation ([field_type value{}], include/field/field.hpp:29). *)
Fixpoint default_ct (t : ctype) : val :=
  match t with
  | TScalar _ => VZ 0
  | TArr n t' => VSeq (repeat (default_ct t') n)
  | TFixStr n => VSeq (repeat (VZ 0) (S n))
  | TFloat w => VF w 0
  end.

(** include/field/field.hpp:29. *)
Fixpoint default_ty (t : fty) : val :=
  match t with
  | FFixed t' _ => default_ct t'
  | FVar _ _ _ => VSeq []
  | FStruct fs => VRec (default_fields fs)
  | FArrRec n fs => VSeq (repeat (VRec (default_fields fs)) n)
  | FVecRec _ _ _ _ => VSeq []
  | FMaybe _ _ _ => VNone
  | FUnion _ al => VAlt 0 (default_alts al)
  end
with default_fields (fs : fields) : list val :=
  match fs with
  | FNil => []
  | FCons _ t _ fs' => default_ty t :: default_fields fs'
  end
with default_alts (al : alts) : val :=
  match al with
  | ANil => VNone
  | ACons t _ _ => default_ty t
  end.
