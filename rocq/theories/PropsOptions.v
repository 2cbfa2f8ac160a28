(** * C61-C65: magic descriptors, bounds, maybe, constraint classes, lists *)
From Verif Require Import Examples OptionSpec OptionFacts KindSpec KindFacts.
Import ListNotations.

Definition any_size (t : cxx) : nat := 24.
Definition xu8 : cxx := XInt u8.
Definition xu16 : cxx := XInt u16.

(** ** C61: a magic descriptor is the ordinary descriptor with an [eq]. *)
Theorem C61_ordinary : forall sgn other d d' opts p,
  spelled_out d = Some (d', opts) -> resolve sgn other d' opts = Some p ->
  resolve sgn other d [] = Some p.
Proof. exact magic_spelled. Qed.
Print Assumptions C61_ordinary.

(** The converse needs the width of a number to fit its type. *)
Theorem C61_magic : forall sgn other d d' opts p,
  spelled_out d = Some (d', opts) ->
  (forall t sz s lit n, d = MagicNumber t sz s lit -> sz = SzBytes n -> (n <= x_size other t)%nat) ->
  resolve sgn other d [] = Some p -> resolve sgn other d' opts = Some p.
Proof. exact magic_spelled_conv. Qed.
Print Assumptions C61_magic.

Theorem C61_magic_refuted : exists sgn other d d' opts p,
  spelled_out d = Some (d', opts) /\ resolve sgn other d [] = Some p /\
  resolve sgn other d' opts = None.
Proof.
  exists true, any_size, (MagicNumber xu16 (SzBytes 3) u16 7). do 3 eexists.
  split; [reflexivity|]. split; vm_compute; reflexivity.
Qed.
Print Assumptions C61_magic_refuted.

Example C61_case :
  spelled_out (MagicString [83; 50; 83; 0]) =
    Some (FixedStringField 3, [OptConstr (CStr false [83; 50; 83; 0])]) /\
  resolve true any_size (FixedStringField 3) [OptConstr (CStr false [83; 50; 83; 0])] =
    Some (mkPlain (XFixStr 3) (SzBytes 4) (CStr false [83; 50; 83; 0]) None) /\
  resolve true any_size (MagicString [83; 50; 83; 0]) [] =
    Some (mkPlain (XFixStr 3) (SzBytes 4) (CStr false [83; 50; 83; 0]) None).
Proof. vm_compute. auto. Qed.

(** ** C62: only containers take a bound, and it is the field's. *)
Theorem C62_containers_only : forall sgn other d opts p b,
  resolve sgn other d opts = Some p -> In (OptBound b) opts -> container d.
Proof. exact bound_container. Qed.
Print Assumptions C62_containers_only.

Theorem C62_kept : forall sgn other d opts p b,
  resolve sgn other d opts = Some p -> In (OptBound b) opts -> p_bound p = b.
Proof. exact bound_kept. Qed.
Print Assumptions C62_kept.

Example C62_case :
  resolve true any_size (VecField xu8) [OptBound (Some 64); OptSize (SzLen (LenField "n"))] =
    Some (mkPlain (XVector xu8) (SzLen (LenField "n")) CNone (Some 64)) /\
  resolve true any_size (BasicField xu16) [OptBound (Some 64)] = None /\
  resolve true any_size (FixedArrayField xu8 4) [OptBound (Some 64)] = None /\
  resolve true any_size (FixedStringField 4) [OptBound (Some 64)] = None.
Proof. vm_compute. auto. Qed.

(** ** C63: an optional field can stand in a list exactly when it has no bound of its own. *)
Theorem C63_maybe : forall sgn other d opts p id pred ids f,
  resolve sgn other d opts = Some p -> resolve_maybe (CField id p) pred ids = Some f ->
  (has_length_deps f = true <-> p_bound p = None).
Proof. exact maybe_deps. Qed.
Print Assumptions C63_maybe.

(** Nothing but a field without a bound can be made optional and stand in a list. *)
Theorem C63_base : forall f pred ids,
  has_length_deps (CMaybe f pred ids) = true <->
  exists id p, f = CField id p /\ p_bound p = None /\ has_length_deps f = true.
Proof. exact maybe_base. Qed.
Print Assumptions C63_base.

(** A union when each of its choices can. *)
Theorem C63_union : forall id td ps c,
  has_length_deps (CUnion id td ps c) = true <-> forall p i, In p ps -> has_length_deps (CField i p) = true.
Proof. exact union_deps. Qed.
Print Assumptions C63_union.

(** So not every optional field of which the base can stand in a list can. *)
Theorem C63_maybe_refuted : exists sgn other d opts p id pred ids f,
  resolve sgn other d opts = Some p /\ resolve_maybe (CField id p) pred ids = Some f /\
  field_like f = true /\ has_length_deps (CField id p) = true /\ has_length_deps f = false.
Proof.
  exists true, any_size, (VecField xu8), [OptSize (SzLen (LenField "n")); OptBound (Some 64)].
  eexists. exists "v", bit0, ["flags"]. eexists. repeat split; vm_compute; reflexivity.
Qed.
Print Assumptions C63_maybe_refuted.

Example C63_case :
  resolve true any_size (VecField xu8) [OptSize (SzLen (LenField "n"))] =
    Some (mkPlain (XVector xu8) (SzLen (LenField "n")) CNone None) /\
  has_length_deps
    (CMaybe (CField "v" (mkPlain (XVector xu8) (SzLen (LenField "n")) CNone None)) bit0 ["flags"])
  = true.
Proof. vm_compute. auto. Qed.

(** ** C64: the constraint classes take the types the documentation lists. *)
Theorem C64_usable : forall c t,
  ~ (c = KGte /\ exists n, t = XFixStr n) ->
  ~ ((c = KEq \/ c = KNeq) /\ exists e n, t = XArray e n) ->
  (constraint_usable c t = true <-> documented c t).
Proof. exact usable_iff. Qed.
Print Assumptions C64_usable.

(** What the two conditions leave out, and the concepts themselves. *)
Theorem C64_exact : forall t,
  (constraint_usable KEq t = true <-> value_type t /\ ~ exists w, t = XFloat w) /\
  (constraint_usable KNeq t = true <-> value_type t /\ ~ exists w, t = XFloat w) /\
  (constraint_usable KGte t = true <-> exists s, t = XInt s).
Proof. exact usable_exact. Qed.
Print Assumptions C64_exact.

Theorem C64_concepts : forall t,
  (equality_comparable t = true <-> equatable t /\ ~ exists w, t = XFloat w) /\
  (comparable t = true <-> orderable t) /\
  (inequality_comparable t = true <-> exists s, t = XInt s).
Proof. exact concepts. Qed.
Print Assumptions C64_concepts.

Example C64_concepts_case :
  equality_comparable (XArray (XFloat 4) 2) = true /\ equality_comparable (XRecord FNil) = false /\
  comparable (XVector XString) = true /\ comparable (XFixStr 3) = false /\
  inequality_comparable xu16 = true /\ inequality_comparable XString = false.
Proof. vm_compute. auto 10. Qed.

(** [gte] of a string is documented but there is no order on strings; [eq] of an array of
    floating-point numbers is taken. *)
Theorem C64_gte_refuted : exists c t, documented c t /\ constraint_usable c t = false.
Proof. exists KGte, (XFixStr 3). split; [right; eauto|reflexivity]. Qed.
Print Assumptions C64_gte_refuted.

Theorem C64_eq_refuted : exists c t, ~ documented c t /\ constraint_usable c t = true.
Proof.
  exists KEq, (XArray (XFloat 4) 2). split; [|reflexivity]. intros H. inversion H; subst.
  inversion H1.
Qed.
Print Assumptions C64_eq_refuted.

Example C64_case :
  constraint_usable KEq xu16 = true /\ constraint_usable KEq (XFloat 4) = false /\
  constraint_usable KLt (XFloat 4) = true /\ constraint_usable KGte (XFloat 4) = false /\
  constraint_usable KLte (XFixStr 3) = false /\ constraint_usable KAnyOf (XFixStr 3) = true /\
  constraint_usable KEq XString = false.
Proof. vm_compute. auto 10. Qed.

(** ** C65: the compile-time lists and the optional. *)
Theorem C65_all_are_same : forall A (same : A -> A -> bool) l,
  (forall x y, same x y = true <-> x = y) ->
  (tl_all_same same l = true <-> forall x y, In x l -> In y l -> x = y).
Proof. exact @all_same_iff. Qed.
Print Assumptions C65_all_are_same.

Theorem C65_any_of : forall A (same : A -> A -> bool) l t,
  (forall x y, same x y = true <-> x = y) -> (tl_any_of same l t = true <-> In t l).
Proof. exact @any_of_iff. Qed.
Print Assumptions C65_any_of.

Theorem C65_names : forall l n,
  fsl_size l = length l /\ fsl_get 0 n l = nth_error l n /\ fsl_pop n l = skipn n l.
Proof. exact (fun l n => conj (fsl_size_length l) (conj (fsl_get_nth n l) (fsl_pop_skipn l n))). Qed.
Print Assumptions C65_names.

(** A converted optional holds what the original holds. *)
Theorem C65_optional : forall A (d : A) (o : option A),
  (so_to_bool (so_of_std d o) = true <-> exists a, o = Some a) /\
  (forall a, o = Some a -> so_deref (so_of_std d o) = a).
Proof. exact @so_of_std_holds. Qed.
Print Assumptions C65_optional.

(** One made from a value holds it; one made from nothing holds none. *)
Theorem C65_optional_value : forall A (d a : A),
  so_to_bool (so_of a) = true /\ so_deref (so_of a) = a /\ so_to_bool (so_none d) = false /\
  so_none d = so_of_std d None /\ so_of a = so_of_std d (Some a).
Proof. exact @so_made. Qed.
Print Assumptions C65_optional_value.

Theorem C65_front : forall A (null t : A) l,
  tl_front null (t :: l) = t /\ tl_front null [] = null.
Proof. exact @front_is. Qed.
Print Assumptions C65_front.

(** Comparing with [nullopt] says the opposite of [std::optional]: equal when there is a
    value. *)
Theorem C65_nullopt_inverted : forall A (d : A) (o : option A),
  so_eq_nullopt (so_of_std d o) = true <-> exists a, o = Some a.
Proof. exact @so_eq_nullopt_iff. Qed.
Print Assumptions C65_nullopt_inverted.

Theorem C65_nullopt_refuted : exists (o : option nat),
  o = None /\ so_eq_nullopt (so_of_std 0%nat o) = false.
Proof. exists None. split; reflexivity. Qed.
Print Assumptions C65_nullopt_refuted.

Example C65_case :
  tl_all_same Nat.eqb [3; 3; 3]%nat = true /\ tl_all_same Nat.eqb [3; 3; 4]%nat = false /\
  fsl_get 0 1 ["a"; "b"] = Some "b" /\ fsl_pop 1 ["a"; "b"] = ["b"] /\
  so_deref (so_of_std 0%nat (Some 5%nat)) = 5%nat.
Proof. vm_compute. auto 10. Qed.

(** ** C66: a type tag is its descriptor, except that [as_trivial] takes floating-point
    numbers too and [as_fixed_arr] and [as_vec] hold nothing but numbers. *)
Theorem C66_mirror : forall sgn other d opts, tag_elements d ->
  resolve_tag other d opts = resolve sgn other (mirror d) opts.
Proof. exact mirror_resolve. Qed.
Print Assumptions C66_mirror.

Theorem C66_float : forall sgn other w opts,
  resolve_tag other (AsTrivial (XFloat w)) opts =
  option_map (fun p => mkPlain (XFloat w) (p_size p) (p_constr p) (p_bound p))
             (resolve sgn other (BasicField (XInt (SInt w false))) opts).
Proof. exact tag_float. Qed.
Print Assumptions C66_float.

Theorem C66_refused : forall other opts t, ~ number t ->
  resolve_tag other (AsTrivial t) opts = None /\ resolve_tag other (AsVec t) opts = None /\
  forall n, resolve_tag other (AsFixedArr t n) opts = None.
Proof. exact tag_refused. Qed.
Print Assumptions C66_refused.

(** What the mirrored descriptor takes besides. *)
Theorem C66_mirror_refuted : exists sgn other d opts,
  resolve_tag other d opts <> resolve sgn other (mirror d) opts.
Proof.
  exists true, (fun _ => 24%nat), (AsFixedArr (XArray (XInt (SInt 1 false)) 2) 3), [].
  vm_compute. discriminate.
Qed.
Print Assumptions C66_mirror_refuted.

Example C66_case :
  tag_elements (AsVec (XFloat 4)) /\ tag_elements (AsTrivial (XInt (SInt 2 false))) /\
  ~ number (XFixStr 3) /\
  resolve_tag (fun _ => 24%nat) (AsTrivial (XFloat 8)) [OptSize (SzBytes 4)]
    = Some (mkPlain (XFloat 8) (SzBytes 4) CNone None) /\
  resolve_tag (fun _ => 24%nat) (AsFixedString 3) [] = Some (mkPlain (XFixStr 3) (SzBytes 4) CNone None).
Proof.
  split; [constructor|]. split; [eexists; reflexivity|]. split; [intros H; inversion H|].
  vm_compute. auto.
Qed.
