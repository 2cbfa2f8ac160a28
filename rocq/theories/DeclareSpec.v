(** * Vocabulary for stating which structs can be declared *)
From Coq Require Import String.
From Verif Require Export Declare StaticSpec.
Local Open Scope list_scope.

(** The list and those of all records in it are declared. *)
Definition declared (a : abi) (fs : fields) : Prop :=
  forall gs, In gs (lists fs) -> exists ds, struct_field_list a ds = Some gs.

(** Numbers, and arrays of them however deep. *)
Inductive numeric : ctype -> Prop :=
| nm_int : forall s, numeric (TScalar s)
| nm_float : forall w, numeric (TFloat w)
| nm_arr : forall n t, numeric t -> numeric (TArr n t).

(** A plain field and its constraint: integers with at most their bytes unless an [eq] is
    asked of them, arrays of numbers and strings with exactly theirs, containers of
    numbers or of arrays of them, records and sequences of records.  No field is a
    floating-point number, an array of strings or a container of containers. *)
Inductive plain_ok (a : abi) : fty -> constr -> Prop :=
| po_int : forall s n k, (n <= ssize s)%nat \/ (exists s' z, k = CCmp OEq s' z) ->
    plain_ok a (FFixed (TScalar s) n) k
| po_arr : forall m t k, numeric t -> plain_ok a (FFixed (TArr m t) (m * csize t)) k
| po_str : forall m k, plain_ok a (FFixed (TFixStr m) (S m)) k
| po_var : forall t l b k, numeric t -> plain_ok a (FVar t l b) k
| po_rec : forall fs k, plain_ok a (FStruct fs) k
| po_arrrec : forall m fs k, plain_ok a (FArrRec m fs) k
| po_vecrec : forall fs l b k, plain_ok a (FVecRec fs (a_recsz a fs) l b) k.

(** An alternative and its C++ type: as above, but floating-point numbers too, and arrays
    and containers of numbers only. *)
Inductive num : cxx -> ctype -> Prop :=
| nu_int : forall s, num (XInt s) (TScalar s)
| nu_float : forall w, num (XFloat w) (TFloat w).

Inductive alt_ok (a : abi) : cxx -> fty -> Prop :=
| ao_num : forall x c n, num x c -> (n <= csize c)%nat -> alt_ok a x (FFixed c n)
| ao_arr : forall x c m, num x c -> alt_ok a (XArray x m) (FFixed (TArr m c) (m * csize c))
| ao_str : forall m, alt_ok a (XFixStr m) (FFixed (TFixStr m) (S m))
| ao_vec : forall x c l b, num x c -> alt_ok a (XVector x) (FVar c l b)
| ao_string : forall l b, alt_ok a XString (FVar (TScalar (SInt 1 (a_sgn a))) l b)
| ao_rec : forall fs, alt_ok a (XRecord fs) (FStruct fs)
| ao_arrrec : forall m fs, alt_ok a (XArray (XRecord fs) m) (FArrRec m fs)
| ao_vecrec : forall fs l b, alt_ok a (XVector (XRecord fs)) (FVecRec fs (a_recsz a fs) l b).

(** A callable that returns [bool], as a predicate. *)
Definition bool_callable (p : list val -> bool) : Prop :=
  exists f : list val -> Z, p = fun vs => negb (f vs =? 0).

(** One case for each of [n] alternatives; a switch on a field names an earlier integer. *)
Definition guide_ok (G : tenv) (g : guide) (n : nat) : Prop :=
  match g with
  | GField id s cases => length cases = n /\ exists m, tlookup G id = Some (FFixed (TScalar s) m)
  | GComp _ _ _ cases => length cases = n
  | GLadder brs => length brs = n /\ Forall (fun b => bool_callable (fst b)) brs
  end.

(** A field after those of [G]. *)
Inductive field_ok (a : abi) (G : tenv) : fty -> constr -> Prop :=
| fo_plain : forall t k, plain_ok a t k -> field_ok a G t k
| fo_maybe : forall t p ids, plain_ok a t CNone -> field_ok a G (FMaybe t p ids) CNone
| fo_union : forall g al k xs, guide_ok G g (length xs) -> xs <> [] ->
    Forall2 (alt_ok a) xs (a_types al) ->
    NoDup (map (a_tid a) xs) -> NoDup (match_values_of (a_szw a) g) ->
    field_ok a G (FUnion g al) k.

Inductive fields_ok (a : abi) : tenv -> fields -> Prop :=
| fk_nil : forall G, fields_ok a G FNil
| fk_cons : forall G id t k fs, field_ok a G t k -> fields_ok a ((id, t) :: G) fs ->
    fields_ok a G (FCons id t k fs).

(** What else compiling the casts asks of a list: constraints take their field's values
    ([constr_ok], Typing.v), and a field that gives a length is an earlier integer. *)
Fixpoint a_list (al : alts) : list (fty * constr) :=
  match al with ANil => [] | ACons t k al' => (t, k) :: a_list al' end.

Definition constraints_taken (gs : fields) : Prop :=
  forall id t k, In (id, t, k) (f_list gs) -> constr_ok t k = true /\
    forall g al u k', t = FUnion g al -> In (u, k') (a_list al) -> constr_ok u k' = true.

Definition plain_lengths (t : fty) : list ident :=
  match t with FVar _ (LenField d) _ | FVecRec _ _ (LenField d) _ => [d] | _ => [] end.

Definition named_lengths (t : fty) : list ident :=
  match t with
  | FMaybe b _ _ => plain_lengths b
  | FUnion _ al => flat_map plain_lengths (a_types al)
  | _ => plain_lengths t
  end.

Definition lengths_are_integers (gs : fields) : Prop :=
  forall pre id t k post d, f_list gs = pre ++ (id, t, k) :: post -> In d (named_lengths t) ->
    exists s n k', In (d, FFixed (TScalar s) n, k') pre.
