(** * Type deduction guides: the template arguments of [variance] and how they are matched *)
From Verif Require Export Kinds.
Local Open Scope list_scope.

(** A value given as a template argument to [match_case].  Simplification: enumerators
    stand for their integers.
    In the code: include/type_deduction/switch/match_case.hpp:9-13. *)
Inductive mval :=
| MInt (s : sty) (z : Z)
| MFloat (w : nat) (z : Z)
| MClass (n : nat).                (* of class type, [fixed_string] for one *)

(** What a callable is declared to return.
    In the code: include/field_compute/computation_from_fields.hpp:9-32. *)
Inductive rty := RInt (s : sty) | ROther (n : nat).

(** Types that can stand where [variance] expects a guide, by the template they are an
    instance of.  (include/type_deduction/type/type.hpp:12-42, switch/match_case.hpp:8-13,
    switch/switch.hpp:8-15, if_else_ladder/clause.hpp:9-16, if_else_ladder/ladder.hpp:9-16,
    field_compute/computation_from_fields.hpp:12-33.)  Names of the library that are
    aliases are spelled out: [match_field] is [field_accessor], [predicate] and [compute]
    are [compute_t]. *)
Inductive targ :=
| TAccessor (id : ident)
| TCompute (f : list val -> Z) (r : rty) (ids : list ident)
| TTag (d : tag) (opts : list opt)
| TCase (v : mval) (t : targ)
| TBranch (e t : targ)
| TSwitch (cases : list targ)
| TIfElse (branches : list targ)
| TType (args : list targ)
| TNoDeduction
| TOther (n : nat).

(** ** The traits *)

(** type_tags.hpp:119-171 [is_type_tag]. *)
Definition is_type_tag (t : targ) : bool := match t with TTag _ _ => true | _ => false end.

(** switch/match_case_traits.hpp:8-25, if_else_ladder/clause_traits.hpp:7-24. *)
Definition is_match_case (t : targ) : bool := match t with TCase _ _ => true | _ => false end.
(** include/type_deduction/if_else_ladder/clause_traits.hpp:7-24. *)
Definition is_branch (t : targ) : bool := match t with TBranch _ _ => true | _ => false end.

(** field_compute/computation_from_fields_traits.hpp:10-39. *)
Definition is_compute_like (t : targ) : bool := match t with TCompute _ _ _ => true | _ => false end.
(** include/field_compute/computation_from_fields_traits.hpp:10-39, returning [bool]. *)
Definition is_eval_bool (t : targ) : bool :=
  match t with TCompute _ (RInt SBool) _ => true | _ => false end.

(** switch/switch_traits.hpp:8-25, if_else_ladder/ladder_traits.hpp:9-26: a head and a
    tail of cases. *)
Definition is_type_switch (t : targ) : bool :=
  match t with TSwitch (c :: cs) => is_match_case c && forallb is_match_case cs | _ => false end.
(** include/type_deduction/if_else_ladder/ladder_traits.hpp:9-26. *)
Definition is_type_if_else (t : targ) : bool :=
  match t with TIfElse (b :: bs) => is_branch b && forallb is_branch bs | _ => false end.

(** The constraints of the templates named in the type are met; otherwise it cannot be
    written down.  [type] itself constrains nothing.
    In the code: include/type_deduction/type/type.hpp:10-39, switch/switch.hpp, switch/match_case.hpp, if_else_ladder/clause.hpp, ladder.hpp. *)
Fixpoint formed (other : cxx -> nat) (t : targ) : bool :=
  match t with
  | TTag d opts => match resolve_tag other d opts with Some _ => true | None => false end
  | TCase _ g => is_type_tag g && formed other g
  | TBranch e g => is_eval_bool e && is_type_tag g && formed other e && formed other g
  | TSwitch cs =>
      forallb is_match_case cs && negb (Nat.eqb (length cs) 0) && forallb (formed other) cs
  | TIfElse bs =>
      forallb is_branch bs && negb (Nat.eqb (length bs) 0) && forallb (formed other) bs
  | TType l => forallb (formed other) l
  | _ => true
  end.

(** ** Selecting a specialisation of a template over [type<...>]
    type.hpp:19-41, type_deduction_traits.hpp:35-61, type_impl.hpp:17-45 have the same
    three patterns: [type<E, S>], [type<match_field<id>, S>], [type<L>]. *)
Inductive pattern := PExpr | PField | PLadder.

(** include/type_deduction/type/type_impl.hpp:17-45, the patterns. *)
Definition matches (p : pattern) (t : targ) : bool :=
  match p, t with
  | PExpr, TType [_; _] => true
  | PField, TType [TAccessor _; _] => true
  | PLadder, TType [_] => true
  | _, _ => false
  end.

(** Partial ordering: everything [PField] matches is matched by [PExpr], not conversely.
    In the code: for include/type_deduction/type/type_impl.hpp:18-30. *)
Definition more_special (p q : pattern) : bool :=
  match p, q with PField, PExpr => true | _, _ => false end.

(** The matching specialisations no other matching one is more special than.  None: the
    primary template; several: ambiguous.
    In the code: for include/type_deduction/type/type_impl.hpp:15-45. *)
Definition picked (t : targ) : list pattern :=
  let ms := filter (fun p => matches p t) [PExpr; PField; PLadder] in
  filter (fun p => negb (existsb (fun q => more_special q p) ms)) ms.

(** type_deduction_traits.hpp:32-67 [is_type_deduction]. *)
Definition is_type_deduction (t : targ) : bool :=
  match t with
  | TNoDeduction => true
  | _ =>
      match picked t, t with
      | [PExpr], TType [e; s] => is_compute_like e && is_type_switch s
      | [PField], TType [_; s] => is_type_switch s
      | [PLadder], TType [l] => is_type_if_else l
      | _, _ => false
      end
  end.

(** ** What the metafunctions extract *)

(** [typename case::type_tag], with its members.
    In the code: include/type_deduction/utils/type_condition_list.hpp:13-14, include/field/field.hpp:90-104. *)
Definition tag_of (other : cxx -> nat) (t : targ) : option plain :=
  match t with
  | TCase _ (TTag d opts) | TBranch _ (TTag d opts) => resolve_tag other d opts
  | _ => None
  end.

(** type.hpp:19-41 [conditions] with field.hpp:90-98 [to_field_choices]: the alternatives
    as the readers and writers have them.  [None]: no such member. *)
Definition to_field_choices (other : cxx -> nat) (t : targ) : option (list plain) :=
  match picked t, t with
  | [PExpr], TType [_; TSwitch cs] | [PField], TType [_; TSwitch cs] => all_some (map (tag_of other) cs)
  | [PExpr], TType [_; TIfElse cs] | [PField], TType [_; TIfElse cs]
  | [PLadder], TType [TIfElse cs] | [PLadder], TType [TSwitch cs] => all_some (map (tag_of other) cs)
  | _, _ => None
  end.

(** type_deduction_metafunctions.hpp:21-69 [extract_field_choices]: three patterns, each
    with the cases spelled out. *)
Definition case_tag (other : cxx -> nat) (t : targ) : option plain :=
  match t with TCase _ (TTag d opts) => resolve_tag other d opts | _ => None end.
(** include/type_deduction/if_else_ladder/clause.hpp:13-17, its [type_tag]. *)
Definition branch_tag (other : cxx -> nat) (t : targ) : option plain :=
  match t with
  | TBranch (TCompute _ (RInt SBool) _) (TTag d opts) => resolve_tag other d opts
  | _ => None
  end.

(** include/type_deduction/type/type_deduction_metafunctions.hpp:21-70. *)
Definition extract_field_choices (other : cxx -> nat) (t : targ) : option (list plain) :=
  match t with
  | TType [TAccessor _; TSwitch cs] | TType [TCompute _ _ _; TSwitch cs] =>
      all_some (map (case_tag other) cs)
  | TType [TIfElse bs] => all_some (map (branch_tag other) bs)
  | _ => None
  end.

(** [static_cast<std::size_t>] of a match value; [None]: no such conversion, or one
    without a defined result (a number truncated out of range), which a constant
    expression must not have.
    In the code: include/type_deduction/type/type_deduction_metafunctions.hpp:103-122. *)
Definition to_size_t (szw : nat) (v : mval) : option Z :=
  match v with
  | MInt _ z => Some (z mod pow256 szw)
  | MFloat w z =>
      match fdec w z with
      | FFin n =>
          let q := Z.quot n (2 ^ 1074) in
          if (0 <=? q) && (q <? pow256 szw) then Some q else None
      | _ => None
      end
  | MClass _ => None
  end.

(** type_deduction_metafunctions.hpp:84-122 [extract_match_values]; the primary template
    has an empty vector. *)
Definition case_value (szw : nat) (t : targ) : option Z :=
  match t with TCase v _ => to_size_t szw v | _ => None end.

(** include/type_deduction/type/type_deduction_metafunctions.hpp:84-122. *)
Definition extract_match_values (szw : nat) (t : targ) : option (list Z) :=
  match t with
  | TType [TAccessor _; TSwitch cs] | TType [TCompute _ _ _; TSwitch cs] =>
      all_some (map (case_value szw) cs)
  | _ => Some []
  end.

(** field_list_metadata.hpp:150-226 [extract_type_deduction_dependencies], 255-270
    [extract_switch_discriminants]: unlike the patterns above, the switch is not looked
    into.  (The capacity of the vectors: [type_deps] of [Static.v].) *)
Definition clause_ids (t : targ) : option (list ident) :=
  match t with
  | TBranch (TCompute _ (RInt SBool) ids) (TTag _ _) => Some ids
  | _ => None
  end.

(** include/field_list/field_list_metadata.hpp:150-226. *)
Definition extract_dependencies (t : targ) : option (list ident) :=
  match t with
  | TType [TAccessor id; _] => Some [id]
  | TType [TCompute _ _ ids; _] => Some ids
  | TType [TIfElse bs] => option_map (@concat _) (all_some (map clause_ids bs))
  | _ => Some []
  end.

(** include/field_list/field_list_metadata.hpp:255-270. *)
Definition extract_discriminants (t : targ) : list ident :=
  match t with TType [TAccessor id; _] => [id] | _ => [] end.

(** ** include/api/field_descriptors.hpp:94-103 [variance]
    [tid]: the ids of types.  [Some ps]: the alternatives; [None]: a constraint is not
    met, or a member that has to exist does not. *)
Definition variance (szw : nat) (other : cxx -> nat) (tid : cxx -> Z) (t : targ) (opts : list opt)
  : option (list plain) :=
  if is_type_deduction t && pack_ok opts && only is_constr opts then
    match extract_field_choices other t, extract_match_values szw t, to_field_choices other t with
    | Some ps, Some vs, Some qs =>
        match are_unique Z.eqb (map (fun p => tid (p_type p)) ps), are_unique Z.eqb vs with
        | Some true, Some true => Some qs
        | _, _ => None
        end
    | _, _, _ => None
    end
  else None.

(** ** The guide of the model
    [disc]: the types of the fields a switch can name.  Guides with match values that are
    not integers, and computations that do not return integers, are outside the model of
    the casts.  A [bool] callable stands for the predicate it is.
    In the code: include/type_deduction/switch/match_case.hpp:9-13. *)
Definition to_case (t : targ) : option (sty * Z) :=
  match t with TCase (MInt s z) _ => Some (s, z) | _ => None end.
(** include/type_deduction/if_else_ladder/clause.hpp:13-17. *)
Definition to_branch (t : targ) : option ((list val -> bool) * list ident) :=
  match t with
  | TBranch (TCompute f (RInt SBool) ids) _ => Some (fun vs => negb (f vs =? 0)%Z, ids)
  | _ => None
  end.

(** include/type_deduction/type/type.hpp:10-39. *)
Definition to_guide (disc : ident -> option sty) (t : targ) : option guide :=
  match t with
  | TType [TAccessor id; TSwitch cs] =>
      match disc id, all_some (map to_case cs) with
      | Some s, Some l => Some (GField id s l)
      | _, _ => None
      end
  | TType [TCompute f (RInt r) ids; TSwitch cs] => option_map (GComp f r ids) (all_some (map to_case cs))
  | TType [TIfElse bs] => option_map GLadder (all_some (map to_branch bs))
  | _ => None
  end.
