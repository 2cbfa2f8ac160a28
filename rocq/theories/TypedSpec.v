(** * What a schema must be for the compiler to take it *)
From Coq Require Import String.
From Verif Require Export Typing.
Import ListNotations.
Open Scope Z_scope.

Definition alternatives : alts -> list (fty * constr) :=
  fix go al := match al with ANil => [] | ACons t k al' => (t, k) :: go al' end.

(** A field of type [t] constrained by [k] occurs in the schema; [G] lists the fields
    declared before it in the same struct, the last first. *)
Inductive occurs : tenv -> fields -> tenv -> fty -> constr -> Prop :=
| occ_here G id t k fs : occurs G (FCons id t k fs) G t k
| occ_later G id t k fs G' t' k' :
    occurs ((id, t) :: G) fs G' t' k' -> occurs G (FCons id t k fs) G' t' k'
| occ_inside G id t k fs G' t' k' : inside G t G' t' k' -> occurs G (FCons id t k fs) G' t' k'
with inside : tenv -> fty -> tenv -> fty -> constr -> Prop :=
| in_struct G fs G' t' k' : occurs [] fs G' t' k' -> inside G (FStruct fs) G' t' k'
| in_arr G n fs G' t' k' : occurs [] fs G' t' k' -> inside G (FArrRec n fs) G' t' k'
| in_vec G fs n l b G' t' k' : occurs [] fs G' t' k' -> inside G (FVecRec fs n l b) G' t' k'
| in_base G t p ids : inside G (FMaybe t p ids) G t CNone
| in_maybe G t p ids G' t' k' : inside G t G' t' k' -> inside G (FMaybe t p ids) G' t' k'
| in_choice G g al t k : In (t, k) (alternatives al) -> inside G (FUnion g al) G t k
| in_union G g al t k G' t' k' :
    In (t, k) (alternatives al) -> inside G t G' t' k' -> inside G (FUnion g al) G' t' k'.

(** The field named [id] is the last one declared under that name, and has type [t]. *)
Definition sees (G : tenv) (id : ident) (t : fty) : Prop :=
  exists l r, G = l ++ (id, t) :: r /\ ~ In id (map fst l).

(** Neither optional nor a union. *)
Definition simple (t : fty) : Prop :=
  (forall b p ids, t <> FMaybe b p ids) /\ (forall g al, t <> FUnion g al).

(** Lengths and tags come from integers declared before; there are as many cases as
    alternatives; optional fields and unions do not nest directly. *)
Definition type_fits (G : tenv) (t : fty) : Prop :=
  match t with
  | FVar _ (LenField id) _ | FVecRec _ _ (LenField id) _ =>
      exists s n, sees G id (FFixed (TScalar s) n)
  | FMaybe b _ _ => simple b
  | FUnion g al =>
      (forall t' k', In (t', k') (alternatives al) -> simple t') /\
      match g with
      | GField id s cases =>
          (exists n, sees G id (FFixed (TScalar s) n)) /\ length cases = length (alternatives al)
      | GComp _ _ _ cases => length cases = length (alternatives al)
      | GLadder brs => length brs = length (alternatives al)
      end
  | _ => True
  end.

(** A number. *)
Definition numeric (t : fty) : Prop :=
  exists n, (exists s, t = FFixed (TScalar s) n) \/ (exists w, t = FFixed (TFloat w) n).

(** A string of [m] characters and a final NUL. *)
Definition string_of (m : nat) (cs : list Z) : Prop :=
  exists cs', cs = cs' ++ [0] /\ length cs' = m /\ Forall byte_ok cs'.

(** Literals are values that the field's can be compared with. *)
Definition constraint_fits (t : fty) (k : constr) : Prop :=
  match k with
  | CNone | CFun _ => True
  | CCmp _ s lit => numeric t /\ ct_ok (TScalar s) (VZ lit)
  | CAny s lits => numeric t /\ Forall (fun l => ct_ok (TScalar s) (VZ l)) lits
  | CFCmp o w lit => numeric t /\ ct_ok (TFloat w) (VF w lit) /\ (o = OLt \/ o = OGt \/ o = OLte)
  | CFAny w lits => numeric t /\ Forall (fun l => ct_ok (TFloat w) (VF w l)) lits
  | CArr _ lit =>
      has_ty t lit /\
      ((exists m e n, t = FFixed (TArr m e) n) \/ (exists e l b, t = FVar e l b))
  | CStr _ lit => exists m n, t = FFixed (TFixStr m) n /\ string_of m lit
  | CStrAny lits => exists m n, t = FFixed (TFixStr m) n /\ Forall (string_of m) lits
  end.

(** ** Free of what can go wrong when reading *)

Inductive bool_in : ctype -> Prop :=
| bool_scalar : bool_in (TScalar SBool)
| bool_elt n t : bool_in t -> bool_in (TArr n t).

(** The field's own bytes are not those of a [bool]. *)
Definition no_bools (t : fty) : Prop :=
  match t with FFixed t' _ | FVar t' _ _ => ~ bool_in t' | _ => True end.

(** Strings are not compared, nor floating-point numbers with integers. *)
Definition no_such_literal (t : fty) (k : constr) : Prop :=
  match k with
  | CStr _ _ | CStrAny _ => False
  | CCmp _ s _ | CAny s _ => s <> SBool -> forall w n, t <> FFixed (TFloat w) n
  | _ => True
  end.
