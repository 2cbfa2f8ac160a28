(** * Type deduction guides

    [formed]: the type can be written down (Guides.v).  [guide_form]: a switch on a field,
    a switch on a computed value, or a ladder; [tags_are], [values_are],
    [told_apart_by], [consults]: GuideSpec.v. *)
From Verif Require Import StaticSpec GuideSpec Examples.
From Verif Require Import GuideFacts.
Local Open Scope list_scope.

(** ** C76: which types can be written down.  [resolve_tag]: C66. *)
Theorem C76_written : forall other t, formed other t = true <->
  written (fun d o => exists p, resolve_tag other d o = Some p) t.
Proof. exact formed_iff. Qed.
Print Assumptions C76_written.

(** The concept admits the three documented forms, and the placeholder. *)
Theorem C76_concept : forall other t, formed other t = true ->
  (is_type_deduction t = true <-> t = TNoDeduction \/ guide_form t).
Proof. exact deduction_iff. Qed.
Print Assumptions C76_concept.

(** The specialisations over [type<...>] never tie; a switch on a field has its own. *)
Theorem C76_selection : forall t,
  (picked t = [PField] <-> exists id s, t = TType [TAccessor id; s]) /\
  (picked t = [PExpr] <-> exists e s, t = TType [e; s] /\ forall id, e <> TAccessor id) /\
  (picked t = [PLadder] <-> exists l, t = TType [l]) /\
  (picked t = [] <-> forall l, t = TType l -> length l <> 1%nat /\ length l <> 2%nat) /\
  (length (picked t) <= 1)%nat.
Proof. exact selected_form. Qed.
Print Assumptions C76_selection.

(** [variance] takes exactly the three forms, with alternatives of distinct types, match
    values told apart, and a constraint as the only option; the alternatives are the tags
    in the order written. *)
Theorem C76_variance : forall szw other tid t opts ps, formed other t = true ->
  (variance szw other tid t opts = Some ps <->
   guide_form t /\
   (exists tags, tags_are t tags /\
      Forall2 (fun d p => resolve_tag other (fst d) (snd d) = Some p) tags ps) /\
   NoDup (map (fun p => tid (p_type p)) ps) /\
   (exists vs ns, values_are t vs /\ Forall2 (told_apart_by szw) vs ns /\ NoDup ns) /\
   (opts = [] \/ exists k, opts = [OptConstr k])).
Proof. exact variance_iff. Qed.
Print Assumptions C76_variance.

(** The dependencies registered for a guide are the fields it consults; its
    discriminants are the field of a switch on a field. *)
Theorem C76_dependencies : forall t, guide_form t ->
  exists ids, extract_dependencies t = Some ids /\ forall id, In id ids <-> consults t id.
Proof. exact dependencies_form. Qed.
Print Assumptions C76_dependencies.

Theorem C76_discriminants : forall t id,
  In id (extract_discriminants t) <-> exists s, t = TType [TAccessor id; s].
Proof. exact discriminants_form. Qed.
Print Assumptions C76_discriminants.

(** An accepted guide with a counterpart in the model is the union of the model: same
    alternatives, as many cases, same dependencies. *)
Theorem C76_model : forall szw other tid disc id t g opts ps, formed other t = true ->
  variance szw other tid t opts = Some ps -> to_guide disc t = Some g ->
  resolve_variance szw tid id g ps opts = Some (CUnion id g ps (constr_in_pack opts)) /\
  extract_dependencies t = Some (guide_ids g) /\
  match g with
  | GField _ _ cs | GComp _ _ _ cs => length cs = length ps
  | GLadder bs => length bs = length ps
  end.
Proof. exact to_guide_variance. Qed.
Print Assumptions C76_model.

(** The deduction of the model leads where the guide says. *)
Theorem C76_leads : forall disc E t g i, guide_form t -> to_guide disc t = Some g ->
  (deduce_type E g = Some (Some i) <-> leads_to disc E t i).
Proof. exact guide_leads. Qed.
Print Assumptions C76_leads.

Example C76_leads_case :
  let t := TType [TAccessor "kind"; TSwitch (case_list
             [(MInt i32 1, (AsTrivial (XInt u8), [])); (MInt i32 2, (AsTrivial (XFloat 8), []));
              (MInt u8 2, (AsTrivial (XInt u16), []))])] in
  guide_form t /\ leads_to (fun _ => Some u8) [("kind", VZ 2)] t 1 /\
  exists g, to_guide (fun _ => Some u8) t = Some g /\ deduce_type [("kind", VZ 2)] g = Some (Some 1%nat).
Proof.
  intros t. assert (G : guide_form t) by (apply gf_field; discriminate).
  assert (L : exists g, to_guide (fun _ => Some u8) t = Some g /\
                        deduce_type [("kind", VZ 2)] g = Some (Some 1%nat))
    by (eexists; split; [vm_compute; reflexivity|vm_compute; reflexivity]).
  split; [exact G|]. split; [|exact L]. destruct L as (g & E & D).
  exact (proj1 (C76_leads _ _ _ _ _ G E) D).
Qed.

(** What has no counterpart: match values and computations that are not integers,
    switches on fields that are not integers. *)
Theorem C76_modelled : forall disc t, guide_form t ->
  ((exists g, to_guide disc t = Some g) <->
   (forall id s, t = TType [TAccessor id; s] -> disc id <> None) /\
   (forall f n ids s, t <> TType [TCompute f (ROther n) ids; s]) /\
   (forall vs, values_are t vs -> Forall (fun v => exists s z, v = MInt s z) vs)).
Proof. exact to_guide_defined. Qed.
Print Assumptions C76_modelled.

Definition g_tag (t : cxx) : targ := TTag (AsTrivial t) [].
Definition g_switch : targ :=
  TType [TAccessor "kind"; TSwitch [TCase (MInt i32 1) (g_tag (XInt u8)); TCase (MInt i32 2) (g_tag (XFloat 8))]].
Definition g_other (t : cxx) : nat := 24.
Definition g_tid (t : cxx) : Z := match t with XInt _ => 1 | XFloat _ => 2 | _ => 3 end.

Example C76_case :
  formed g_other g_switch = true /\ guide_form g_switch /\
  variance 8 g_other g_tid g_switch [] =
    Some [mkPlain (XInt u8) (SzBytes 1) CNone None; mkPlain (XFloat 8) (SzBytes 8) CNone None] /\
  to_guide (fun _ => Some u16) g_switch = Some (GField "kind" u16 [(i32, 1); (i32, 2)]) /\
  extract_dependencies g_switch = Some ["kind"] /\
  is_type_deduction (TType [TSwitch [TCase (MInt i32 1) (g_tag (XInt u8))]]) = false /\
  formed g_other (TSwitch []) = false /\ formed g_other (TTag (AsVec (XInt u8)) []) = false /\
  formed g_other (TBranch (TCompute (fun _ => 1) (RInt u8) ["a"]) (g_tag (XInt u8))) = false /\
  variance 8 g_other g_tid
    (TType [TIfElse [TBranch (TCompute (fun _ => 1) (RInt SBool) ["a"]) (g_tag (XInt u8))]])
    [OptConstr CNone] = Some [mkPlain (XInt u8) (SzBytes 1) CNone None].
Proof.
  split; [vm_compute; reflexivity|]. split.
  { apply (gf_field "kind" [(MInt i32 1, (AsTrivial (XInt u8), [])); (MInt i32 2, (AsTrivial (XFloat 8), []))]).
    discriminate. }
  repeat (split; [vm_compute; reflexivity|]). vm_compute. reflexivity.
Qed.

(** The concept admits [no_type_deduction], [variance] never takes it. *)
Theorem C76_placeholder_refuted : exists t, is_type_deduction t = true /\
  forall szw other tid opts, variance szw other tid t opts = None.
Proof. exists TNoDeduction. split; [reflexivity|exact no_deduction_refused]. Qed.
Print Assumptions C76_placeholder_refuted.

(** Different match values can be taken for duplicates: 1.0 and 1.5, and with a 32-bit
    [size_t] integers that agree in their low 32 bits. *)
Theorem C76_distinct_refuted : exists other tid a b c d,
  variance 8 other tid (TType [TAccessor "kind"; TSwitch [TCase (MFloat 8 a) (g_tag (XInt u8));
                                                         TCase (MFloat 8 b) (g_tag (XFloat 8))]]) [] = None /\
  ~ fequal (fdec 8 a) (fdec 8 b) /\
  variance 4 other tid (TType [TAccessor "kind"; TSwitch [TCase (MInt u64 c) (g_tag (XInt u8));
                                                         TCase (MInt u64 d) (g_tag (XFloat 8))]]) [] = None /\
  c <> d /\ 0 <= c < 2 ^ 64 /\ 0 <= d < 2 ^ 64 /\ tid (XInt u8) <> tid (XFloat 8).
Proof.
  exists g_other, g_tid, 0x3FF0000000000000, 0x3FF8000000000000, 1, (2 ^ 32 + 1).
  split; [vm_compute; reflexivity|]. split; [intros [H _]; vm_compute in H; discriminate|].
  split; [vm_compute; reflexivity|]. repeat split; discriminate.
Qed.
Print Assumptions C76_distinct_refuted.
