(** * What a declaration should mean: names, dependencies, limits, assignability

    Independent of the tables the compiler builds. *)
From Coq Require Import String.
From Verif Require Export WSpec.
Local Open Scope list_scope.

(** ** Names a field takes from its own list *)

Definition names_of (l : lenspec) : list ident :=
  match l with LenField id => [id] | LenComp _ ids => ids end.

(** For a length, be it inside an optional or an alternative. *)
Fixpoint len_uses (t : fty) : list ident :=
  match t with
  | FVar _ l _ | FVecRec _ _ l _ => names_of l
  | FMaybe b _ _ => len_uses b
  | FUnion _ al => len_uses_alts al
  | _ => []
  end
with len_uses_alts (al : alts) : list ident :=
  match al with ANil => [] | ACons t _ al' => len_uses t ++ len_uses_alts al' end.

(** For the presence of an optional. *)
Definition pred_uses (t : fty) : list ident :=
  match t with FMaybe _ _ ids => ids | _ => [] end.

(** For the choice of an alternative. *)
Definition switch_uses (t : fty) : list ident :=
  match t with
  | FUnion (GField id _ _) _ => [id]
  | FUnion (GComp _ _ ids _) _ => ids
  | FUnion (GLadder brs) _ => flat_map snd brs
  | _ => []
  end.

Definition uses (t : fty) : list ident := len_uses t ++ pred_uses t ++ switch_uses t.

(** ** Lists at any depth *)

Fixpoint lists_ty (t : fty) : list fields :=
  match t with
  | FStruct fs | FArrRec _ fs | FVecRec fs _ _ _ => fs :: lists_fields fs
  | FMaybe b _ _ => lists_ty b
  | FUnion _ al => lists_alts al
  | _ => []
  end
with lists_fields (fs : fields) : list fields :=
  match fs with FNil => [] | FCons _ t _ fs' => lists_ty t ++ lists_fields fs' end
with lists_alts (al : alts) : list fields :=
  match al with ANil => [] | ACons t _ al' => lists_ty t ++ lists_alts al' end.

(** The list itself and those of the records in it. *)
Definition lists (fs : fields) : list fields := fs :: lists_fields fs.

(** A list as a sequence. *)
Fixpoint f_list (fs : fields) : list (ident * fty * constr) :=
  match fs with FNil => [] | FCons id t k fs' => (id, t, k) :: f_list fs' end.

Fixpoint a_types (al : alts) : list fty :=
  match al with ANil => [] | ACons t _ al' => t :: a_types al' end.

(** Every name a field uses is declared earlier in its list; or, failing that, is its
    own. *)
Definition uses_earlier (gs : fields) : Prop :=
  forall i id t k d, nth_error (f_list gs) i = Some (id, t, k) -> In d (uses t) ->
    In d (firstn i (f_ids gs)).

Definition uses_earlier_or_itself (gs : fields) : Prop :=
  forall i id t k d, nth_error (f_list gs) i = Some (id, t, k) -> In d (uses t) ->
    In d (firstn i (f_ids gs)) \/ d = id.

(** No name, declared or used, is empty. *)
Definition named (gs : fields) : Prop :=
  ~ In EmptyString (f_ids gs) /\
  forall id t k, In (id, t, k) (f_list gs) -> ~ In EmptyString (uses t).

(** [maybe] and [variance] hold plain fields. *)
Definition plain_field (t : fty) : Prop :=
  match t with FMaybe _ _ _ | FUnion _ _ => False | _ => True end.

Definition nests_plain (t : fty) : Prop :=
  match t with
  | FMaybe b _ _ => plain_field b
  | FUnion _ al => Forall plain_field (a_types al)
  | _ => True
  end.

Definition all_nest_plain (fs : fields) : Prop :=
  forall id t k, In (id, t, k) (f_list fs) -> nests_plain t.

(** The library's capacities; and a [maybe] does not wrap a container with an explicit
    [max_bytes]. *)
Definition small_ty (t : fty) : Prop :=
  (length (len_uses t) <= 64)%nat /\ (length (pred_uses t) <= 64)%nat /\
  (length (switch_uses t) <= 64)%nat /\
  match t with
  | FUnion g al =>
      (a_len al <= 64)%nat /\
      match g with GLadder brs => (length brs <= 64)%nat | _ => True end
  | FMaybe (FVar _ _ (Some _)) _ _ | FMaybe (FVecRec _ _ _ (Some _)) _ _ => False
  | _ => True
  end.

Definition small (gs : fields) : Prop :=
  (1 <= f_len gs <= 256)%nat /\
  forall id t k, In (id, t, k) (f_list gs) -> small_ty t.

(** The match values of a switch, as [size_t]s. *)
Definition match_values_of (szw : nat) (g : guide) : list Z :=
  match g with
  | GField _ _ cases | GComp _ _ _ cases => map (fun sv => snd sv mod 256 ^ Z.of_nat szw) cases
  | GLadder _ => []
  end.

(** The switches of a list's own fields. *)
Definition switches (gs : fields) : list guide :=
  flat_map (fun x => match snd (fst x) with FUnion g _ => [g] | _ => [] end) (f_list gs).

(** ** Sizes *)

Fixpoint sizes_ty (t : fty) : bool :=
  match t with
  | FFixed t' n =>
      ct_wf t' && match t' with TScalar _ | TFloat _ => Nat.leb n (csize t') | _ => Nat.eqb n (csize t') end
  | FVar elt _ _ => ct_wf elt
  | FStruct fs | FArrRec _ fs => sizes_fields fs
  | FVecRec fs recsz _ _ => sizes_fields fs && (0 <? recsz)
  | FMaybe b _ _ => sizes_ty b
  | FUnion _ al => sizes_alts al
  end
with sizes_fields (fs : fields) : bool :=
  match fs with FNil => true | FCons _ t _ fs' => sizes_ty t && sizes_fields fs' end
with sizes_alts (al : alts) : bool :=
  match al with ANil => true | ACons t _ al' => sizes_ty t && sizes_alts al' end.

(** ** Fields the writer fills in *)

Definition length_of_container (t : fty) : list ident :=
  match t with FVar _ (LenField id) _ | FVecRec _ _ (LenField id) _ => [id] | _ => [] end.

Definition discriminant_of_variant (t : fty) : list ident :=
  match t with FUnion (GField id _ _) _ => [id] | _ => [] end.

(** With repetitions, in order. *)
Definition lengths (fs : fields) : list ident :=
  flat_map (fun x => length_of_container (snd (fst x))) (f_list fs).

Definition discriminants (fs : fields) : list ident :=
  flat_map (fun x => discriminant_of_variant (snd (fst x))) (f_list fs).

(** The two builds differ at most in [S2S_DEFAULT_MAX_BYTES]. *)
Definition same_but_default (c c' : cfg) : Prop :=
  c_host c = c_host c' /\ c_wire c = c_wire c' /\ c_cx c = c_cx c' /\ c_szw c = c_szw c'.

(** ** Sorting *)

Inductive ascending {A} (le : A -> A -> Prop) : list A -> Prop :=
| asc_nil : ascending le []
| asc_cons x l : Forall (le x) l -> ascending le l -> ascending le (x :: l).

(** ** What a descriptor asks of one field *)

(** A declared width: at most the type's for numbers, unless the field is a
    [magic_number]; the type's for arrays and strings.  Other fields declare none. *)
Definition width_ok (magic : Prop) (t : fty) : Prop :=
  match t with
  | FFixed (TScalar s) n => (n <= ssize s)%nat \/ magic
  | FFixed (TFloat w) n => (n <= w)%nat
  | FFixed t' n => n = csize t'
  | _ => True
  end.

(** An optional wraps, and an alternative is, neither an optional nor a union; neither is
    a [magic_number].  The match values of a union differ. *)
Definition described (szw : nat) (k : constr) (t : fty) : Prop :=
  match t with
  | FMaybe b _ _ => plain_field b /\ width_ok False b
  | FUnion g al => NoDup (match_values_of szw g) /\ Forall (fun u => plain_field u /\ width_ok False u) (a_types al)
  | _ => width_ok (exists s lit, k = CCmp OEq s lit) t
  end.
