(** * What each descriptor declares, as a table *)
From Coq Require Import Permutation.
From Verif Require Export DeclareSpec GuideSpec.
Local Open Scope list_scope.

(** At most one size, one constraint and one bound, in any order. *)
Definition given {A} (f : A -> opt) (x : option A) : list opt :=
  match x with Some y => [f y] | None => [] end.
Definition pack (opts : list opt) (s : option size_opt) (k : option constr) (b : option (option Z)) : Prop :=
  Permutation opts (given OptSize s ++ given OptConstr k ++ given OptBound b).

Definition constraint_of (k : option constr) : constr := match k with Some k' => k' | None => CNone end.
Definition bound_of (b : option (option Z)) : option Z := match b with Some b' => b' | None => None end.
(** The bytes of a number: those asked for, or all it has. *)
Definition bytes_of (s : option size_opt) (all n : nat) : Prop :=
  s = None /\ n = all \/ s = Some (SzBytes n).

(** Numbers, and arrays of one form over them. *)
Inductive elem (arr : cxx -> nat -> cxx) : cxx -> ctype -> Prop :=
| el_num : forall x c, num x c -> elem arr x c
| el_arr : forall x c n, elem arr x c -> elem arr (arr x n) (TArr n c).

(** docs/reference.md, field descriptors: descriptor, options, the field, its constraint. *)
Inductive plain_says (a : abi) : desc -> list opt -> fty -> constr -> Prop :=
| ps_basic : forall s opts sz k n, pack opts sz k None -> bytes_of sz (ssize s) n -> (n <= ssize s)%nat ->
    plain_says a (BasicField (XInt s)) opts (FFixed (TScalar s) n) (constraint_of k)
| ps_array : forall x c m opts k, elem XArray x c -> pack opts None k None ->
    plain_says a (FixedArrayField x m) opts (FFixed (TArr m c) (m * csize c)) (constraint_of k)
| ps_carray : forall x c m opts k, elem XCArray x c -> pack opts None k None ->
    plain_says a (CArrField x m) opts (FFixed (TArr m c) (m * csize c)) (constraint_of k)
| ps_string : forall m opts k, pack opts None k None ->
    plain_says a (FixedStringField m) opts (FFixed (TFixStr m) (S m)) (constraint_of k)
| ps_cstring : forall m opts k, pack opts None k None ->
    plain_says a (CStrField m) opts (FFixed (TArr (S m) (TScalar (SInt 1 (a_sgn a)))) (S m)) (constraint_of k)
| ps_records : forall fs m opts k, pack opts None k None ->
    plain_says a (ArrayOfRecords (XRecord fs) m) opts (FArrRec m fs) (constraint_of k)
| ps_record : forall fs opts k, pack opts None k None ->
    plain_says a (StructField (XRecord fs)) opts (FStruct fs) (constraint_of k)
| ps_magic_bytes : forall m lit,
    plain_says a (MagicByteArray m lit) [] (FFixed (TArr m (TScalar (SInt 1 false))) m) (CArr false lit)
| ps_magic_string : forall lit m, m = (length lit - 1)%nat ->
    plain_says a (MagicString lit) [] (FFixed (TFixStr m) (S m)) (CStr false lit)
| ps_magic_number : forall s n s' z,
    plain_says a (MagicNumber (XInt s) (SzBytes n) s' z) [] (FFixed (TScalar s) n) (CCmp OEq s' z)
| ps_vector : forall x c opts l k b, elem XArray x c -> pack opts (Some (SzLen l)) k b ->
    plain_says a (VecField x) opts (FVar c l (bound_of b)) (constraint_of k)
| ps_vector_records : forall d fs opts l k b, d = VecField (XRecord fs) \/ d = VectorOfRecords (XRecord fs) ->
    pack opts (Some (SzLen l)) k b ->
    plain_says a d opts (FVecRec fs (a_recsz a fs) l (bound_of b)) (constraint_of k)
| ps_str : forall opts l k b, pack opts (Some (SzLen l)) k b ->
    plain_says a StrField opts (FVar (TScalar (SInt 1 (a_sgn a))) l (bound_of b)) (constraint_of k).

(** docs/schema/optional-and-variant.md, type tags: the alternative's C++ type as well. *)
Inductive alt_says (a : abi) : tag -> list opt -> cxx -> fty -> constr -> Prop :=
| as_num : forall x c opts sz k n, num x c -> pack opts sz k None -> bytes_of sz (csize c) n ->
    (n <= csize c)%nat -> alt_says a (AsTrivial x) opts x (FFixed c n) (constraint_of k)
| as_arr : forall x c m opts k, num x c -> pack opts None k None ->
    alt_says a (AsFixedArr x m) opts (XArray x m) (FFixed (TArr m c) (m * csize c)) (constraint_of k)
| as_fixstr : forall m opts k, pack opts None k None ->
    alt_says a (AsFixedString m) opts (XFixStr m) (FFixed (TFixStr m) (S m)) (constraint_of k)
| as_record : forall fs opts k, pack opts None k None ->
    alt_says a (AsStruct (XRecord fs)) opts (XRecord fs) (FStruct fs) (constraint_of k)
| as_records : forall fs m opts k, pack opts None k None ->
    alt_says a (AsArrOfRecords (XRecord fs) m) opts (XArray (XRecord fs) m) (FArrRec m fs) (constraint_of k)
| as_vector : forall x c opts l k b, num x c -> pack opts (Some (SzLen l)) k b ->
    alt_says a (AsVec x) opts (XVector x) (FVar c l (bound_of b)) (constraint_of k)
| as_str : forall opts l k b, pack opts (Some (SzLen l)) k b ->
    alt_says a AsString opts XString (FVar (TScalar (SInt 1 (a_sgn a))) l (bound_of b)) (constraint_of k)
| as_vector_records : forall fs opts l k b, pack opts (Some (SzLen l)) k b ->
    alt_says a (AsVecOfRecords (XRecord fs)) opts (XVector (XRecord fs))
      (FVecRec fs (a_recsz a fs) l (bound_of b)) (constraint_of k).

Inductive alts_say (a : abi) : list (tag * list opt) -> list cxx -> alts -> Prop :=
| al_nil : alts_say a [] [] ANil
| al_cons : forall d opts tags x xs t k al, alt_says a d opts x t k -> alts_say a tags xs al ->
    alts_say a ((d, opts) :: tags) (x :: xs) (ACons t k al).

(** The guide, with the tags of its cases; the values its cases give. *)
Definition int_cases (l : list ((sty * Z) * (tag * list opt))) : list targ :=
  case_list (map (fun c => (MInt (fst (fst c)) (snd (fst c)), snd c)) l).
Inductive guide_says (G : tenv) : targ -> guide -> list (tag * list opt) -> list Z -> Prop :=
| gs_field : forall id s n l, tlookup G id = Some (FFixed (TScalar s) n) ->
    guide_says G (TType [TAccessor id; TSwitch (int_cases l)])
      (GField id s (map fst l)) (map snd l) (map (fun c => snd (fst c)) l)
| gs_comp : forall f r ids l,
    guide_says G (TType [TCompute f (RInt r) ids; TSwitch (int_cases l)])
      (GComp f r ids (map fst l)) (map snd l) (map (fun c => snd (fst c)) l)
| gs_ladder : forall l,
    guide_says G (TType [TIfElse (branch_list l)])
      (GLadder (map (fun b => (fun vs => negb (fst (fst b) vs =? 0)%Z, snd (fst b))) l)) (map snd l) [].

Definition c_array (d : desc) : Prop := match d with CArrField _ _ | CStrField _ => True | _ => False end.

(** One member of a list, after the fields [G]. *)
Inductive says (a : abi) (G : tenv) : decl -> fty -> constr -> Prop :=
| sy_field : forall d opts t k, plain_says a d opts t k -> says a G (DField d opts) t k
| sy_maybe : forall d opts t p ids, plain_says a d opts t CNone -> ~ c_array d ->
    says a G (DMaybe d opts p ids) (FMaybe t p ids) CNone
| sy_variance : forall tg g tags zs xs al opts k, guide_says G tg g tags zs -> tags <> [] ->
    alts_say a tags xs al -> NoDup (map (a_tid a) xs) ->
    NoDup (map (fun z => z mod pow256 (a_szw a))%Z zs) -> pack opts None k None ->
    says a G (DVariance tg opts) (FUnion g al) (constraint_of k).

Inductive declares (a : abi) : tenv -> list (ident * decl) -> fields -> Prop :=
| dc_nil : forall G, declares a G [] FNil
| dc_cons : forall G id x ds t k fs, says a G x t k -> declares a ((id, t) :: G) ds fs ->
    declares a G ((id, x) :: ds) (FCons id t k fs).

(** Declarations that differ in the order of options only. *)
Inductive reordered_tag : tag * list opt -> tag * list opt -> Prop :=
| rt : forall d o o', Permutation o o' -> reordered_tag (d, o) (d, o').
Inductive reordered_case : targ -> targ -> Prop :=
| rc_case : forall v d o o', Permutation o o' -> reordered_case (TCase v (TTag d o)) (TCase v (TTag d o'))
| rc_branch : forall c d o o', Permutation o o' -> reordered_case (TBranch c (TTag d o)) (TBranch c (TTag d o')).
Inductive reordered_guide : targ -> targ -> Prop :=
| rg_switch : forall e l l', Forall2 reordered_case l l' ->
    reordered_guide (TType [e; TSwitch l]) (TType [e; TSwitch l'])
| rg_ladder : forall l l', Forall2 reordered_case l l' ->
    reordered_guide (TType [TIfElse l]) (TType [TIfElse l']).
Inductive reordered : ident * decl -> ident * decl -> Prop :=
| ro_field : forall id d o o', Permutation o o' -> reordered (id, DField d o) (id, DField d o')
| ro_maybe : forall id d o o' p ids, Permutation o o' ->
    reordered (id, DMaybe d o p ids) (id, DMaybe d o' p ids)
| ro_variance : forall id t t' o o', Permutation o o' -> reordered_guide t t' ->
    reordered (id, DVariance t o) (id, DVariance t' o').
