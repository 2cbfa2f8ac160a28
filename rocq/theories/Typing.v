(** * What the C++ type checker guarantees about a schema and a struct

    A schema that passes [wf] may still be rejected by the compiler: a length
    taken from a field that is not a number, a switch whose cases and alternatives
    differ in number, a constraint over another kind of value.  [typed] excludes
    exactly those.  [has_fields] says that a struct's slots hold values of their
    C++ types (constraints and lengths may be violated). *)
From Verif Require Export Spec Prog.

(** [std::is_same_v]. *)
Definition sty_eqb (a b : sty) : bool :=
  match a, b with
  | SInt w s, SInt w' s' => Nat.eqb w w' && Bool.eqb s s'
  | SBool, SBool => true
  | _, _ => false
  end.

(** Earlier fields with their types.
    In the code: as declared, include/api/struct_field_list.hpp:28-61. *)
Definition tenv := list (ident * fty).

(** include/field_list/field_list.hpp:112-118. *)
Fixpoint tlookup (G : tenv) (id : ident) : option fty :=
  match G with
  | [] => None
  | (i, t) :: G' => if String.eqb i id then Some t else tlookup G' id
  end.

(** A value of a constant-size type, decidably.
    In the code: include/lib/s2s_traits/type_traits.hpp:15-92. *)
Fixpoint ct_okb (t : ctype) (v : val) {struct t} : bool :=
  match t, v with
  | TScalar s, VZ z => sc_in s z
  | TArr n t', VSeq l => Nat.eqb (length l) n && forallb (ct_okb t') l
  | TFixStr n, VSeq l =>
      Nat.eqb (length l) (S n) &&
      forallb (fun x => match x with VZ z => (0 <=? z) && (z <? 256) | _ => false end) l
  | TFloat w, VF u z => Nat.eqb u w && ((0 <=? z) && (z <? pow256 w))
  | _, _ => false
  end.

(** A [fixed_string<n>] object: [n] characters and a final NUL
    (include/lib/containers/fixed_string.hpp:12-28). *)
Definition str_ok (n : nat) (cs : list Z) : bool :=
  Nat.eqb (length cs) (S n) && forallb (fun z => (0 <=? z) && (z <? 256)) cs &&
  (last cs 1 =? 0).

(** The constraint is callable on the field's values.
    In the code: include/field/field_options.hpp:42-45. *)
Definition constr_ok (t : fty) (k : constr) : bool :=
  match k with
  | CNone | CFun _ => true
  | CCmp _ s lit =>
      match t with FFixed (TScalar _) _ | FFixed (TFloat _) _ => sc_in s lit | _ => false end
  | CAny s lits =>
      match t with FFixed (TScalar _) _ | FFixed (TFloat _) _ => forallb (sc_in s) lits | _ => false end
  | CArr _ lit =>
      match t with
      | FFixed (TArr n t') _ => ct_okb (TArr n t') lit
      | FVar elt _ _ => match lit with VSeq l => forallb (ct_okb elt) l | _ => false end
      | _ => false
      end
  | CFCmp o w lit =>
      match t with
      | FFixed (TScalar _) _ | FFixed (TFloat _) _ =>
          ct_okb (TFloat w) (VF w lit) && match o with OLt | OGt | OLte => true | _ => false end
      | _ => false
      end
  | CFAny w lits =>
      match t with
      | FFixed (TScalar _) _ | FFixed (TFloat _) _ => forallb (fun l => ct_okb (TFloat w) (VF w l)) lits
      | _ => false
      end
  | CStr _ lit => match t with FFixed (TFixStr n) _ => str_ok n lit | _ => false end
  | CStrAny lits => match t with FFixed (TFixStr n) _ => forallb (str_ok n) lits | _ => false end
  end.

(** include/field_size/field_size_deduce.hpp:17-38. *)
Definition len_typed (G : tenv) (l : lenspec) : bool :=
  match l with
  | LenField id =>
      match tlookup G id with Some (FFixed (TScalar _) _) => true | _ => false end
  | LenComp _ _ => true
  end.

(** include/type_deduction/type/type_impl.hpp:15-45. *)
Definition guide_typed (G : tenv) (g : guide) (n : nat) : bool :=
  match g with
  | GField id s cases =>
      match tlookup G id with
      | Some (FFixed (TScalar s') _) => sty_eqb s s' && Nat.eqb (length cases) n
      | _ => false
      end
  | GComp _ _ _ cases => Nat.eqb (length cases) n
  | GLadder brs => Nat.eqb (length brs) n
  end.

(** [maybe] wraps a plain field and an alternative is one: neither nests another
    [maybe] or [variance] (include/field/field.hpp:43-63,89-98,
    include/type_deduction/utils/type_tags.hpp:45-117). *)
Definition flat (t : fty) : bool :=
  match t with FMaybe _ _ _ | FUnion _ _ => false | _ => true end.

(** include/field/field.hpp:18-121. *)
Fixpoint typed_ty (G : tenv) (t : fty) {struct t} : bool :=
  match t with
  | FFixed _ _ => true
  | FVar _ l _ => len_typed G l
  | FStruct fs | FArrRec _ fs => typed_fields [] fs
  | FVecRec fs _ l _ => typed_fields [] fs && len_typed G l
  | FMaybe b _ _ => flat b && typed_ty G b
  | FUnion g al => guide_typed G g (a_len al) && typed_alts G al
  end
with typed_fields (G : tenv) (fs : fields) {struct fs} : bool :=
  match fs with
  | FNil => true
  | FCons id t k fs' => typed_ty G t && constr_ok t k && typed_fields ((id, t) :: G) fs'
  end
with typed_alts (G : tenv) (al : alts) {struct al} : bool :=
  match al with
  | ANil => true
  | ACons t k al' => flat t && typed_ty G t && constr_ok t k && typed_alts G al'
  end.

(** include/api/struct_field_list.hpp:28-61. *)
Definition typed (fs : fields) : bool := typed_fields [] fs.

(** ** Values of C++ types
    In the code: include/field/field.hpp:29. *)

Fixpoint has_ty (t : fty) (v : val) {struct t} : Prop :=
  match t, v with
  | FFixed t' _, _ => ct_ok t' v
  | FVar elt _ _, VSeq l => Forall (ct_ok elt) l
  | FStruct fs, VRec vs => has_fields fs vs
  | FArrRec n fs, VSeq l =>
      length l = n /\ Forall (fun x => match x with VRec vs => has_fields fs vs | _ => False end) l
  | FVecRec fs _ _ _, VSeq l =>
      Forall (fun x => match x with VRec vs => has_fields fs vs | _ => False end) l
  | FMaybe _ _ _, VNone => True
  | FMaybe b _ _, VSome v' => has_ty b v'
  | FUnion _ al, VAlt i v' => has_alt al i v'
  | _, _ => False
  end
with has_fields (fs : fields) (vs : list val) {struct fs} : Prop :=
  match fs, vs with
  | FNil, [] => True
  | FCons _ t _ fs', v :: vs' => has_ty t v /\ has_fields fs' vs'
  | _, _ => False
  end
with has_alt (al : alts) (i : nat) (v : val) {struct al} : Prop :=
  match al, i with
  | ANil, _ => False
  | ACons t _ _, O => has_ty t v
  | ACons _ _ al', S i' => has_alt al' i' v
  end.

(** ** Schemas free of the three sources of undefined behaviour on the read path:
    [bool] slots filled from the wire, [fixed_string] comparison, and integer literals
    compared with floating-point fields (C101).
    In the code: include/field_read/read_impl.hpp:36-66. *)

Fixpoint no_bool (t : ctype) : bool :=
  match t with
  | TScalar SBool => false
  | TScalar _ => true
  | TArr _ t' => no_bool t'
  | TFixStr _ => true
  | TFloat _ => true
  end.

(** Constraints that are evaluated without undefined behaviour whatever the value: none of
    strings, and none with an integer literal on a floating-point number.
    In the code: include/field_validation/field_value_constraints.hpp:42-125. *)
Definition tame (t : fty) (k : constr) : bool :=
  match k with
  | CStr _ _ | CStrAny _ => false
  | CCmp _ (SInt _ _) _ | CAny (SInt _ _) _ =>
      match t with FFixed (TFloat _) _ => false | _ => true end
  | _ => true
  end.

(** The same for every field of the schema (include/field/field.hpp:18-121). *)
Fixpoint plain_ty (t : fty) : bool :=
  match t with
  | FFixed t' _ => no_bool t'
  | FVar elt _ _ => no_bool elt
  | FStruct fs | FArrRec _ fs | FVecRec fs _ _ _ => plain_fields fs
  | FMaybe b _ _ => plain_ty b
  | FUnion _ al => plain_alts al
  end
with plain_fields (fs : fields) : bool :=
  match fs with
  | FNil => true
  | FCons _ t k fs' => plain_ty t && tame t k && plain_fields fs'
  end
with plain_alts (al : alts) : bool :=
  match al with
  | ANil => true
  | ACons t k al' => plain_ty t && tame t k && plain_alts al'
  end.

(** A stream that fills the buffer it is given: what it delivers is as many bytes
    as were asked for.
    In the code: docs/streams.md, include/stream/stream_traits.hpp:17-44. *)
Definition delivers (S : istream) : Prop :=
  forall s n bs s', i_read S s n = (Some bs, s') ->
    length bs = Z.to_nat n /\ Forall byte_ok bs.
