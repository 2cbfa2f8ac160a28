(** * What the compiler evaluates: containers, name tables, checks, accessors

    Constant evaluation that runs out of an array, dereferences an empty
    [std::optional] or initialises an array with too many entries makes the program
    ill formed; the functions below then return [None]. *)
From Coq Require Import String.
From Verif Require Export Write.
Local Open Scope list_scope.

(** ** include/lib/algorithms/algorithms.hpp *)

(** algorithms.hpp:18-26 [find_index_if]: the first index, or the size. *)
Fixpoint find_index_from {A} (p : A -> bool) (i : nat) (ts : list A) : nat :=
  match ts with
  | [] => i
  | t :: ts' => if p t then i else find_index_from p (S i) ts'
  end.

(** include/lib/algorithms/algorithms.hpp:18-26. *)
Definition find_index_if {A} (p : A -> bool) (ts : list A) : nat := find_index_from p 0 ts.

(** algorithms.hpp:8-16. *)
Definition find_index {A} (eqb : A -> A -> bool) (ts : list A) (t : A) : nat :=
  find_index_if (fun x => eqb x t) ts.

(** algorithms.hpp:28-37 [equal_ranges]. *)
Fixpoint equal_items {A} (eqb : A -> A -> bool) (xs ys : list A) : bool :=
  match xs, ys with
  | x :: xs', y :: ys' => if negb (eqb x y) then false else equal_items eqb xs' ys'
  | _, _ => true
  end.

(** include/lib/algorithms/algorithms.hpp:28-37. *)
Definition equal_ranges {A} (eqb : A -> A -> bool) (xs ys : list A) : bool :=
  if negb (Nat.eqb (length xs) (length ys)) then false else equal_items eqb xs ys.

(** algorithms.hpp:46-54 [sort_ranges]: as many passes as there are elements, each
    swapping every adjacent pair that is out of order. *)
Fixpoint sort_pass {A} (less : A -> A -> bool) (x : A) (ts : list A) : list A :=
  match ts with
  | [] => [x]
  | y :: ts' => if less y x then y :: sort_pass less x ts' else x :: sort_pass less y ts'
  end.

(** The inner loop (include/lib/algorithms/algorithms.hpp:48-52). *)
Definition sort_once {A} (less : A -> A -> bool) (ts : list A) : list A :=
  match ts with [] => [] | x :: ts' => sort_pass less x ts' end.

(** Both loops (include/lib/algorithms/algorithms.hpp:46-54). *)
Definition sort_ranges {A} (less : A -> A -> bool) (ts : list A) : list A :=
  Nat.iter (length ts) (sort_once less) ts.

(** ** include/lib/containers *)

(** static_vector.hpp:17-20 [push_back]. *)
Definition push_back {A} (N : nat) (l : list A) (v : A) : option (list A) :=
  if Nat.ltb (length l) N then Some (l ++ [v]) else None.

(** include/lib/containers/static_vector.hpp:14-16, the fold of the constructor. *)
Fixpoint push_all {A} (N : nat) (l : list A) (vs : list A) : option (list A) :=
  match vs with
  | [] => Some l
  | v :: vs' => match push_back N l v with Some l' => push_all N l' vs' | None => None end
  end.

(** static_vector.hpp:13-16, the constructor. *)
Definition static_vector {A} (N : nat) (vs : list A) : option (list A) := push_all N [] vs.

(** static_set.hpp:26-30 [insert]. *)
Definition set_insert {A} (eqb : A -> A -> bool) (N : nat) (l : list A) (v : A) : option (list A) :=
  if Nat.eqb (find_index eqb l v) (length l) then push_back N l v else Some l.

(** include/lib/containers/static_set.hpp:16-25, the constructors. *)
Fixpoint set_insert_all {A} (eqb : A -> A -> bool) (N : nat) (l vs : list A) : option (list A) :=
  match vs with
  | [] => Some l
  | v :: vs' =>
      match set_insert eqb N l v with
      | Some l' => set_insert_all eqb N l' vs'
      | None => None
      end
  end.

(** static_set.hpp:20-25, the constructors. *)
Definition static_set {A} (eqb : A -> A -> bool) (N : nat) (vs : list A) : option (list A) :=
  set_insert_all eqb N [] vs.

(** static_map.hpp:67-74: a new key is appended, a known one gets the new value. *)
Fixpoint set_second {K V} (m : list (K * V)) (i : nat) (v : V) : list (K * V) :=
  match m, i with
  | [], _ => []
  | (k, _) :: m', O => (k, v) :: m'
  | e :: m', S i' => e :: set_second m' i' v
  end.

(** include/lib/containers/static_map.hpp:66-74, one entry. *)
Definition map_put {V} (m : list (ident * V)) (e : ident * V) : list (ident * V) :=
  let i := find_index_if (fun t => String.eqb (fst t) (fst e)) m in
  if Nat.eqb i (length m) then m ++ [e] else set_second m i (snd e).

(** [Node::operator<] (static_map.hpp:29-31) on [std::string_view]s. *)
Definition key_less {V} (a b : ident * V) : bool := String.ltb (fst a) (fst b).

(** static_map.hpp:47-48,62-77.  The parameter is an array of exactly [N] entries:
    those after the given ones are value initialised, with an empty key. *)
Definition static_map {V} (N : nat) (zero : V) (entries : list (ident * V))
  : option (list (ident * V)) :=
  if Nat.ltb N (length entries) then None
  else Some (sort_ranges key_less
         (fold_left map_put (entries ++ repeat (EmptyString, zero) (N - length entries)) [])).

(** static_map.hpp:49-54 [operator[]]. *)
Definition map_get {V} (m : list (ident * V)) (key : ident) : option V :=
  let i := find_index_if (fun t => String.eqb (fst t) key) m in
  if Nat.eqb i (length m) then None else option_map snd (nth_error m i).

(** ** Uniqueness
    include/api/struct_field_list.hpp:17-21 [are_field_ids_unique];
    include/type_deduction/type/type_deduction_metafunctions.hpp:72-76
    [has_unique_field_choices], 125-129 [has_unique_match_values]: the set built from
    the range has the range's capacity. *)
Definition are_unique {A} (eqb : A -> A -> bool) (l : list A) : option bool :=
  match static_set eqb (length l) l with
  | Some s => Some (equal_ranges eqb l s)
  | None => None
  end.

(** ** include/field_list/field_list_metadata.hpp *)

(** include/field_list/field_list_metadata.hpp:19-28. *)
Definition max_deps : nat := 64.
(** include/field_list/field_list_metadata.hpp:22. *)
Definition max_field_count : nat := 256.
(** include/field_list/field_list_metadata.hpp:26; more than the capacity does not compile (static_vector.hpp:17-20). *)
Definition dep_vec (ids : list ident) : option (list ident) := static_vector max_deps ids.

(** One that does not compile is enough for the pack expansion (include/field_list/field_list_metadata.hpp:104,220) not to. *)
Fixpoint all_some {A} (l : list (option A)) : option (list A) :=
  match l with
  | [] => Some []
  | Some a :: l' => match all_some l' with Some r => Some (a :: r) | None => None end
  | None :: _ => None
  end.

(** include/field_list/field_list_metadata.hpp:88-97 [flatten]. *)
Definition flatten_ids (vecs : list (list ident)) : option (list ident) :=
  push_all max_deps [] (concat vecs).

(** include/field_list/field_list_metadata.hpp:202-208 [remove_duplicates]. *)
Definition remove_duplicates (vec : list ident) : option (list ident) :=
  match static_set String.eqb max_deps vec with
  | Some s => static_vector max_deps s
  | None => None
  end.

(** include/field_list/field_list_metadata.hpp:37-123 [extract_length_dependencies].  A [maybe] matches the specialisation at
    78-86 only if its base has the default bound.  The choices of a variance are
    gathered in an array of 64. *)
Definition lenspec_deps (l : lenspec) : option (list ident) :=
  match l with LenField id => dep_vec [id] | LenComp _ ids => dep_vec ids end.

(** include/field_list/field_list_metadata.hpp:41-76, the specialisations for [field]. *)
Definition flat_len_deps (t : fty) : option (list ident) :=
  match t with
  | FVar _ l _ | FVecRec _ _ l _ => lenspec_deps l
  | _ => Some []
  end.

(** [max_bytes] is given (include/field_size/field_size.hpp:42-49,77-79). *)
Definition declares_bound (t : fty) : bool :=
  match t with FVar _ _ (Some _) | FVecRec _ _ _ (Some _) => true | _ => false end.

(** The field choices of a variance (include/field_list/field_list_metadata.hpp:100-105). *)
Fixpoint alts_list (al : alts) : list fty :=
  match al with ANil => [] | ACons t _ al' => t :: alts_list al' end.

(** include/field_list/field_list_metadata.hpp:37-123. *)
Definition len_deps (t : fty) : option (list ident) :=
  match t with
  | FMaybe b _ _ => if declares_bound b then None else flat_len_deps b
  | FUnion _ al =>
      if Nat.ltb max_deps (a_len al) then None
      else match all_some (map flat_len_deps (alts_list al)) with
           | Some vecs => flatten_ids vecs
           | None => None
           end
  | _ => flat_len_deps t
  end.

(** include/field_list/field_list_metadata.hpp:129-147 [extract_parse_dependencies]. *)
Definition parse_deps (t : fty) : option (list ident) :=
  match t with FMaybe _ _ ids => dep_vec ids | _ => Some [] end.

(** include/field_list/field_list_metadata.hpp:150-226 [extract_type_deduction_dependencies]. *)
Definition type_deps (t : fty) : option (list ident) :=
  match t with
  | FUnion (GField id _ _) _ => dep_vec [id]
  | FUnion (GComp _ _ ids _) _ => dep_vec ids
  | FUnion (GLadder brs) _ =>
      if Nat.ltb max_deps (length brs) then None
      else match all_some (map (fun b => dep_vec (snd b)) brs) with
           | Some vecs =>
               match flatten_ids vecs with Some v => remove_duplicates v | None => None end
           | None => None
           end
  | _ => Some []
  end.

(** include/field_list/field_list_metadata.hpp:234-249 [extract_unconditional_len_sources], 255-270
    [extract_switch_discriminants]. *)
Definition len_sources_of (t : fty) : list ident :=
  match t with FVar _ (LenField id) _ | FVecRec _ _ (LenField id) _ => [id] | _ => [] end.

(** include/field_list/field_list_metadata.hpp:255-270. *)
Definition discriminants_of (t : fty) : list ident :=
  match t with FUnion (GField id _ _) _ => [id] | _ => [] end.

(** The pack [fields...] of the list (include/field_list/field_list_metadata.hpp:272-273). *)
Fixpoint f_types (fs : fields) : list fty :=
  match fs with FNil => [] | FCons _ t _ fs' => t :: f_types fs' end.

(** include/field_list/field_list_metadata.hpp:310-318. *)
Definition derived_ids (of : fty -> list ident) (fs : fields) : option (list ident) :=
  match flatten_ids (map of (f_types fs)) with
  | Some v => remove_duplicates v
  | None => None
  end.

(** include/field/field_type_info.hpp:7-10. *)
Record field_type_info := mkInfo { fi_type : Z; fi_at : nat }.

(** include/field_list/field_list_metadata.hpp:27. *)
Definition field_table_t := list (ident * field_type_info).
(** include/field_list/field_list_metadata.hpp:28. *)
Definition dependency_table_t := list (ident * list ident).

(** include/field_list/field_list_metadata.hpp:274-281 [generate_field_table].  [tid i]: the type id of field [i]. *)
Definition field_table (tid : nat -> Z) (fs : fields) : option field_table_t :=
  static_map max_field_count (mkInfo 0 0)
    (combine (f_ids fs) (map (fun i => mkInfo (tid i) i) (seq 0 (f_len fs)))).

(** include/field_list/field_list_metadata.hpp:283-305, the dependency tables. *)
Definition dep_table (deps : fty -> option (list ident)) (fs : fields)
  : option dependency_table_t :=
  match all_some (map deps (f_types fs)) with
  | Some ds => static_map max_field_count [] (combine (f_ids fs) ds)
  | None => None
  end.

(** include/field_list/field_list_metadata.hpp:362-377 [is_dependencies_resolved]. *)
Fixpoint deps_before (ft : field_table_t) (at_idx : nat) (deps : list ident) : option bool :=
  match deps with
  | [] => Some true
  | d :: deps' =>
      match map_get ft d with
      | Some i => if Nat.ltb at_idx (fi_at i) then Some false else deps_before ft at_idx deps'
      | None => None
      end
  end.

(** include/field_list/field_list_metadata.hpp:362-377, the loop over the table. *)
Fixpoint is_dependencies_resolved (ft : field_table_t) (dt : dependency_table_t) : option bool :=
  match dt with
  | [] => Some true
  | (name, deps) :: dt' =>
      match map_get ft name with
      | Some i =>
          match deps_before ft (fi_at i) deps with
          | Some true => is_dependencies_resolved ft dt'
          | r => r
          end
      | None => None
      end
  end.

(** include/field_list/field_list_metadata.hpp:381-400, one of the three checks. *)
Definition resolved (fs : fields) (deps : fty -> option (list ident)) : bool :=
  match field_table (fun _ => 0) fs, dep_table deps fs with
  | Some ft, Some dt =>
      match is_dependencies_resolved ft dt with Some b => b | None => false end
  | _, _ => false
  end.

(** include/api/struct_field_list.hpp:28-61: one list.  (Whether the ids in the table
    resolve does not depend on the type ids.)  An empty list is rejected: the
    [std::array] of its ids has no element type. *)
Definition list_accepted (fs : fields) : bool :=
  match fs with FNil => false | _ => true end &&
  match are_unique String.eqb (f_ids fs) with Some b => b | None => false end &&
  resolved fs len_deps && resolved fs parse_deps && resolved fs type_deps.

(** include/api/field_descriptors.hpp:97-103 [variance], match values:
    type_deduction_metafunctions.hpp:84-122.  [szw]: [sizeof(std::size_t)].
    Simplification: the uniqueness of the alternatives' types is not part of
    [accepted], because the model does not identify C++ types. *)
Definition match_values (szw : nat) (g : guide) : list Z :=
  match g with
  | GField _ _ cases | GComp _ _ _ cases => map (fun sv => snd sv mod pow256 szw) cases
  | GLadder _ => []
  end.

(** include/type_deduction/type/type_deduction_metafunctions.hpp:125-129 on 84-122. *)
Definition values_unique (szw : nat) (g : guide) : bool :=
  match are_unique Z.eqb (match_values szw g) with Some b => b | None => false end.

(** Widths: field_descriptors.hpp:27-61, type_tags.hpp:45-117.  [magic_number] (59-61)
    is a field with an [eq] whose declared width is not compared with its type's. *)
Definition width_accepted (k : constr) (t : ctype) (n : nat) : bool :=
  match t with
  | TScalar s =>
      Nat.leb n (ssize s) || match k with CCmp OEq _ _ => true | _ => false end
  | TFloat w => Nat.leb n w
  | _ => Nat.eqb n (csize t)
  end.

(** What a [maybe] may wrap ([no_variance_field_like], field_descriptors.hpp:89-91) and
    a type tag may describe (type_tags.hpp:45-117). *)
Definition no_variance (t : fty) : bool :=
  match t with FMaybe _ _ _ | FUnion _ _ => false | _ => true end.

(** A schema all of whose lists, at any depth, are accepted.  The base of a [maybe]
    has no constraint, an alternative's width is always checked.
    In the code: include/api/struct_field_list.hpp:28-61 at every list. *)
Fixpoint accepted_ty (szw : nat) (k : constr) (t : fty) {struct t} : bool :=
  match t with
  | FFixed t' n => width_accepted k t' n
  | FVar _ _ _ => true
  | FStruct fs | FArrRec _ fs | FVecRec fs _ _ _ => list_accepted fs && accepted_fields szw fs
  | FMaybe b _ _ => no_variance b && accepted_ty szw CNone b
  | FUnion g al => values_unique szw g && accepted_alts szw al
  end
with accepted_fields (szw : nat) (fs : fields) {struct fs} : bool :=
  match fs with
  | FNil => true
  | FCons _ t k fs' => accepted_ty szw k t && accepted_fields szw fs'
  end
with accepted_alts (szw : nat) (al : alts) {struct al} : bool :=
  match al with
  | ANil => true
  | ACons t _ al' => no_variance t && accepted_ty szw CNone t && accepted_alts szw al'
  end.

(** include/api/struct_field_list.hpp:28-61 at every list. *)
Definition accepted (szw : nat) (fs : fields) : bool :=
  list_accepted fs && accepted_fields szw fs.

(** ** include/field_list/field_list.hpp, [operator[]] *)

Inductive access := NoOverload | ConstRef | MutableRef | IllFormed.

(** field_list_metadata.hpp:334-350: a scan of the id list. *)
Definition is_in_ids (ids : list ident) (name : ident) : bool :=
  existsb (fun id => String.eqb id name) ids.

(** The field with an index (include/field_list/field_list.hpp:56-118, a cast to the base class). *)
Fixpoint f_nth (fs : fields) (i : nat) : option (fty * constr) :=
  match fs, i with
  | FNil, _ => None
  | FCons _ t k _, O => Some (t, k)
  | FCons _ _ _ fs', S i' => f_nth fs' i'
  end.

(** field_list.hpp:14-105.  [const_obj]: the object is const.  For a non-const object
    a viable non-const overload is preferred to the const one; the two non-const
    overloads exclude each other. *)
Definition op_index (const_obj : bool) (fs : fields) (name : ident) : access :=
  match field_table (fun _ => 0) fs, derived_ids len_sources_of fs,
        derived_ids discriminants_of fs with
  | Some ft, Some lens, Some discs =>
      match map_get ft name with
      | None => NoOverload
      | Some i =>
          let is_len := is_in_ids lens name in
          let is_disc := is_in_ids discs name in
          let frozen := match f_nth fs (fi_at i) with
                        | Some (t, k) => is_frozen t k
                        | None => false
                        end in
          if negb const_obj && (negb (is_len || is_disc) && negb frozen) then MutableRef
          else if negb const_obj && ((is_disc || frozen) && negb is_len) then ConstRef
          else if negb is_len then ConstRef
          else NoOverload
      end
  | _, _, _ => IllFormed
  end.

(** ** include/field/field_options.hpp, include/api/field_descriptors.hpp *)

(** A size (include/field_size/field_size.hpp:22-82): [n_B], [len_from_field] /
    [len_from_fields], [size_dont_care], [size_choices]. *)
Inductive size_opt := SzBytes (n : nat) | SzLen (l : lenspec) | SzDontCare | SzChoices.

(** A trailing option, classified by its type (field_options.hpp:35-61); [OptBound
    None] is [use_default_bound].  The three classes are disjoint: sizes and bounds are
    library types without a call operator.  A constraint counts as one only if it can be
    called on the field's values; [OptOther] is everything else. *)
Inductive opt :=
| OptSize (s : size_opt)
| OptConstr (k : constr)
| OptBound (b : option Z)
| OptOther.

(** include/field/field_options.hpp:36-40. *)
Definition is_size (o : opt) : bool := match o with OptSize _ => true | _ => false end.
(** include/field/field_options.hpp:42-45. *)
Definition is_constr (o : opt) : bool := match o with OptConstr _ => true | _ => false end.
(** include/field/field_options.hpp:56. *)
Definition is_bound (o : opt) : bool := match o with OptBound _ => true | _ => false end.

(** field_options.hpp:66-76. *)
Definition count (p : opt -> bool) (opts : list opt) : nat :=
  fold_right (fun o n => if p o then S n else n) 0%nat opts.

(** include/field/field_options.hpp:80-88 [pack_options]. *)
Definition pack_ok (opts : list opt) : bool :=
  Nat.leb (count is_size opts) 1 && Nat.leb (count is_constr opts) 1 &&
  Nat.leb (count is_bound opts) 1.

(** include/field/field_options.hpp:90-133: the first option of the class, or the default. *)
Fixpoint size_in_pack (sz : nat) (opts : list opt) : size_opt :=
  match opts with
  | [] => SzBytes sz
  | OptSize s :: _ => s
  | _ :: opts' => size_in_pack sz opts'
  end.

(** include/field/field_options.hpp:105-118. *)
Fixpoint constr_in_pack (opts : list opt) : constr :=
  match opts with
  | [] => CNone
  | OptConstr k :: _ => k
  | _ :: opts' => constr_in_pack opts'
  end.

(** include/field/field_options.hpp:120-133. *)
Fixpoint bound_in_pack (opts : list opt) : option Z :=
  match opts with
  | [] => None
  | OptBound b :: _ => b
  | _ :: opts' => bound_in_pack opts'
  end.

(** The descriptors that take options (field_descriptors.hpp:27-87) and the type tags
    that mirror them (type_tags.hpp:45-117).  [sz]: [sizeof] of the container or of the
    record, of no consequence for the result. *)
Inductive descriptor :=
| DBasic (s : sty)                       (* basic_field 27-29, as_trivial *)
| DArray (n : nat) (t : ctype)           (* fixed_array_field 31-34, c_arr_field 45-47 *)
| DFixString (n : nat)                   (* fixed_string_field 41-43 *)
| DArrRec (n : nat) (fs : fields)        (* array_of_records 36-39 *)
| DStruct (fs : fields)                  (* struct_field 86-87 *)
| DVec (sz : nat) (elt : ctype)          (* vec_field 64-69, str_field 79-84 *)
| DVecRec (sz : nat) (recsz : Z) (fs : fields).   (* vector_of_records 71-76 *)

(** The options a descriptor admits: include/field/field_options.hpp:47,59. *)
Definition only (p : opt -> bool) (opts : list opt) : bool := forallb p opts.

(** include/api/field_descriptors.hpp:21-107 with the options resolved (include/field/field_options.hpp:137-151). *)
Definition describe (d : descriptor) (opts : list opt) : option (fty * constr) :=
  if negb (pack_ok opts) then None else
  let k := constr_in_pack opts in
  match d with
  | DBasic s =>
      if only (fun o => is_size o || is_constr o) opts then
        match size_in_pack (ssize s) opts with
        | SzBytes n => if Nat.leb n (ssize s) then Some (FFixed (TScalar s) n, k) else None
        | _ => None
        end
      else None
  | DArray n t =>
      if only is_constr opts then Some (FFixed (TArr n t) (n * csize t), k) else None
  | DFixString n => if only is_constr opts then Some (FFixed (TFixStr n) (S n), k) else None
  | DArrRec n fs => if only is_constr opts then Some (FArrRec n fs, k) else None
  | DStruct fs => if only is_constr opts then Some (FStruct fs, k) else None
  | DVec sz elt =>
      if only (fun o => is_size o || is_constr o || is_bound o) opts then
        match size_in_pack sz opts with
        | SzLen l => Some (FVar elt l (bound_in_pack opts), k)
        | _ => None
        end
      else None
  | DVecRec sz recsz fs =>
      if only (fun o => is_size o || is_constr o || is_bound o) opts then
        match size_in_pack sz opts with
        | SzLen l => Some (FVecRec fs recsz l (bound_in_pack opts), k)
        | _ => None
        end
      else None
  end.

(** ** include/lib/metaprog/mp.hpp *)

(** include/lib/metaprog/mp.hpp:23-36 [gen]: a binary search for the first unused id.  [taken i]: [get] for key [i]
    has been defined.  [mid - 1u] wraps around in [std::size_t].  The fuel bounds the
    recursion, which the compiler also bounds. *)
Fixpoint gen (szw : nat) (taken : Z -> bool) (fuel : nat) (left right : Z) : option Z :=
  match fuel with
  | O => None
  | S fuel' =>
      if right <=? left then Some (if taken left then left + 1 else left)
      else let mid := left + (right - left) / 2 in
           if taken mid then gen szw taken fuel' (mid + 1) right
           else gen szw taken fuel' left ((mid - 1) mod pow256 szw)
  end.

(** include/lib/metaprog/mp.hpp:23. *)
Definition max_type_id : Z := 1023.

(** include/lib/metaprog/mp.hpp:38-42: the ids of [n] types in the order in which they are first mentioned.
    Defining [get] twice for one key is an error. *)
Fixpoint type_ids (szw fuel : nat) (used : list Z) (n : nat) : option (list Z) :=
  match n with
  | O => Some used
  | S n' =>
      match gen szw (fun i => existsb (Z.eqb i) used) fuel 0 max_type_id with
      | Some i => if existsb (Z.eqb i) used then None else type_ids szw fuel (used ++ [i]) n'
      | None => None
      end
  end.
