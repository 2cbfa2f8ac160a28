(** * A struct as it is declared: from descriptors to schemas *)
From Coq Require Import String.
From Verif Require Export Guides Typing.
Local Open Scope list_scope.

(** What the implementation decides: [sizeof(std::size_t)], whether [char] is signed, the
    sizes of the other types and of records, the ids of types
    (include/lib/metaprog/mp.hpp:10-44 [type_id]). *)
Record abi := mkAbi {
  a_szw : nat;
  a_sgn : bool;
  a_other : cxx -> nat;
  a_recsz : fields -> Z;
  a_tid : cxx -> Z
}.

(** One member of a [struct_field_list] without its id: a descriptor with its options, a
    [maybe] over one, or a [variance] (include/api/field_descriptors.hpp:27-103). *)
Inductive decl :=
| DField (d : desc) (opts : list opt)
| DMaybe (d : desc) (opts : list opt) (pred : list val -> bool) (ids : list ident)
| DVariance (t : targ) (opts : list opt).

(** The type of the discriminant a [match_field] names: that of an earlier field with an
    integral type.  [seen]: the earlier fields.  Others are outside [to_guide].
    In the code: include/type_deduction/type/type_impl.hpp:29-36. *)
Definition disc_of (seen : tenv) (id : ident) : option sty :=
  match tlookup seen id with Some (FFixed (TScalar s) _) => Some s | _ => None end.

(** The class of the field; [None]: a constraint is not met.  [field_like] is what
    [struct_field_list] asks of its arguments (include/api/struct_field_list.hpp:14-15,58-61),
    and [maybe] of its base (field_descriptors.hpp:89-91). *)
Definition class_of (a : abi) (seen : tenv) (id : ident) (x : decl) : option cfield :=
  match x with
  | DField d opts =>
      match resolve (a_sgn a) (a_other a) d opts with
      | Some p => if field_like (CField id p) then Some (CField id p) else None
      | None => None
      end
  | DMaybe d opts pred ids =>
      match resolve (a_sgn a) (a_other a) d opts with
      | Some p =>
          if field_like (CField id p) then resolve_maybe (CField id p) pred ids else None
      | None => None
      end
  | DVariance t opts =>
      if formed (a_other a) t then
        match variance (a_szw a) (a_other a) (a_tid a) t opts, to_guide (disc_of seen) t with
        | Some ps, Some g => Some (CUnion id g ps (constr_in_pack opts))
        | _, _ => None
        end
      else None
  end.

(** The fields of one list, in order (struct_field_list.hpp:28-61).  Simplification: a
    guide that [to_guide] has no model for is refused here. *)
Fixpoint declare_list (a : abi) (seen : tenv) (ds : list (ident * decl)) : option fields :=
  match ds with
  | [] => Some FNil
  | (id, x) :: ds' =>
      match class_of a seen id x with
      | Some f =>
          match to_field (a_sgn a) (a_recsz a) f with
          | Some (t, k) =>
              match declare_list a ((id, t) :: seen) ds' with
              | Some fs => Some (FCons id t k fs)
              | None => None
              end
          | None => None
          end
      | None => None
      end
  end.

(** One [struct_field_list] that compiles.
    In the code: include/api/struct_field_list.hpp:28-61. *)
Definition struct_field_list (a : abi) (ds : list (ident * decl)) : option fields :=
  match declare_list a [] ds with
  | Some fs => if list_accepted fs then Some fs else None
  | None => None
  end.
