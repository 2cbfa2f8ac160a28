(** * Vocabulary for type deduction guides *)
From Verif Require Export Guides KindSpec.
Local Open Scope list_scope.

(** docs/schema/optional-and-variant.md: a switch on a field, a switch on a computed value, a ladder of
    predicates; [l] lists the cases, each with its tag. *)
Definition case_list (l : list (mval * (tag * list opt))) : list targ :=
  map (fun c => TCase (fst c) (TTag (fst (snd c)) (snd (snd c)))) l.
Definition branch_list (l : list ((list val -> Z) * list ident * (tag * list opt))) : list targ :=
  map (fun b => TBranch (TCompute (fst (fst b)) (RInt SBool) (snd (fst b)))
                        (TTag (fst (snd b)) (snd (snd b)))) l.

Inductive guide_form : targ -> Prop :=
| gf_field : forall id l, l <> [] -> guide_form (TType [TAccessor id; TSwitch (case_list l)])
| gf_comp : forall f r ids l, l <> [] -> guide_form (TType [TCompute f r ids; TSwitch (case_list l)])
| gf_ladder : forall l, l <> [] -> guide_form (TType [TIfElse (branch_list l)]).

(** What can be written down: cases and branches have a tag that is taken ([ok]), a branch
    asks a callable for a [bool], switches and ladders have one case at least; [type] takes
    anything. *)
Inductive written (ok : tag -> list opt -> Prop) : targ -> Prop :=
| wt_accessor : forall id, written ok (TAccessor id)
| wt_compute : forall f r ids, written ok (TCompute f r ids)
| wt_none : written ok TNoDeduction
| wt_other : forall n, written ok (TOther n)
| wt_tag : forall d o, ok d o -> written ok (TTag d o)
| wt_case : forall v d o, ok d o -> written ok (TCase v (TTag d o))
| wt_branch : forall f ids d o, ok d o -> written ok (TBranch (TCompute f (RInt SBool) ids) (TTag d o))
| wt_switch : forall l, l <> [] -> (forall c, In c l -> exists v d o, c = TCase v (TTag d o) /\ ok d o) ->
    written ok (TSwitch l)
| wt_ladder : forall l, l <> [] ->
    (forall b, In b l -> exists f ids d o, b = TBranch (TCompute f (RInt SBool) ids) (TTag d o) /\ ok d o) ->
    written ok (TIfElse l)
| wt_type : forall l, (forall t, In t l -> written ok t) -> written ok (TType l).

(** The tags of a guide, in order, and the values its cases give. *)
Inductive tags_are : targ -> list (tag * list opt) -> Prop :=
| ta_switch : forall e l, tags_are (TType [e; TSwitch (case_list l)]) (map snd l)
| ta_ladder : forall l, tags_are (TType [TIfElse (branch_list l)]) (map snd l).

Inductive values_are : targ -> list mval -> Prop :=
| va_switch : forall e l, values_are (TType [e; TSwitch (case_list l)]) (map fst l)
| va_ladder : forall l, values_are (TType [TIfElse (branch_list l)]) [].

(** The number a match value is told apart by: an integer wraps, a floating-point number
    loses its fraction. *)
Inductive told_apart_by (szw : nat) : mval -> Z -> Prop :=
| tb_int : forall s z k, (0 <= z + k * pow256 szw < pow256 szw)%Z ->
    told_apart_by szw (MInt s z) (z + k * pow256 szw)
| tb_float : forall w z n q, fdec w z = FFin n -> (0 <= q < pow256 szw)%Z ->
    (q * 2 ^ 1074 <= n < (q + 1) * 2 ^ 1074 \/ q = 0 /\ - 2 ^ 1074 < n <= 0)%Z ->
    told_apart_by szw (MFloat w z) q.

(** Fields the guide consults. *)
Inductive consults : targ -> ident -> Prop :=
| co_field : forall id s, consults (TType [TAccessor id; s]) id
| co_comp : forall f r ids s id, In id ids -> consults (TType [TCompute f r ids; s]) id
| co_ladder : forall f r ids g l id, In id ids -> In (TBranch (TCompute f r ids) g) l ->
    consults (TType [TIfElse l]) id.

(** Fields a guide of the model consults. *)
Definition guide_ids (g : guide) : list ident :=
  match g with
  | GField id _ _ => [id]
  | GComp _ _ ids _ => ids
  | GLadder brs => concat (map snd brs)
  end.

(** The guide leads to its [i]-th case: the first whose value equals the discriminant
    ([cxx_eq]: the built-in [==], C44), or whose predicate holds. *)
Definition value_equals (s : sty) (z : Z) (v : mval) : Prop :=
  exists s' z', v = MInt s' z' /\ cxx_eq s z s' z' = true.

Inductive leads_to (disc : ident -> option sty) (E : env) : targ -> nat -> Prop :=
| lt_field : forall id s z l i v d, disc id = Some s -> lookup E id = Some (VZ z) ->
    nth_error l i = Some (v, d) -> value_equals s z v ->
    (forall j v' d', (j < i)%nat -> nth_error l j = Some (v', d') -> ~ value_equals s z v') ->
    leads_to disc E (TType [TAccessor id; TSwitch (case_list l)]) i
| lt_comp : forall f r ids vs l i v d, lookups E ids = Some vs ->
    nth_error l i = Some (v, d) -> value_equals r (conv r (f vs)) v ->
    (forall j v' d', (j < i)%nat -> nth_error l j = Some (v', d') ->
       ~ value_equals r (conv r (f vs)) v') ->
    leads_to disc E (TType [TCompute f (RInt r) ids; TSwitch (case_list l)]) i
| lt_ladder : forall l i f ids vs d, nth_error l i = Some (f, ids, d) ->
    lookups E ids = Some vs -> f vs <> 0%Z ->
    (forall j f' ids' d', (j < i)%nat -> nth_error l j = Some (f', ids', d') ->
       exists vs', lookups E ids' = Some vs' /\ f' vs' = 0%Z) ->
    leads_to disc E (TType [TIfElse (branch_list l)]) i.
