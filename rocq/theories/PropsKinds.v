(** * Which reader, writer and overload the compiler selects *)
From Coq Require Import String Lia.
From Verif Require Import Examples StaticSpec KindFacts KindSpec.
Local Open Scope list_scope.
Local Open Scope string_scope.

(** ** C53: no field matches two of the specialisations [read_field] and [write_field]
    are given; [field_like] is exactly "one matches". *)
Theorem C53_unambiguous : forall f k k',
  is_kind k f = true -> is_kind k' f = true -> k = k'.
Proof. exact is_kind_unique. Qed.
Print Assumptions C53_unambiguous.

Theorem C53_selected : forall f, field_like f = true <-> exists k, specialisations f = [k].
Proof. exact specialisations_one. Qed.
Print Assumptions C53_selected.

(** Likewise for the ways to find a size, and a fixed or variable-size field has one. *)
Theorem C53_size_unambiguous : forall s m m',
  size_matches m s = true -> size_matches m' s = true -> m = m'.
Proof. exact size_form_unique. Qed.
Print Assumptions C53_size_unambiguous.

Theorem C53_size_found : forall id p k,
  specialisations (CField id p) = [k] -> k = KFixed \/ k = KVariable ->
  exists m, In m deduce_forms /\ size_matches m (p_size p) = true.
Proof. exact size_form_exists. Qed.
Print Assumptions C53_size_found.

(** Of a record no size is ever deduced. *)
Theorem C53_no_size : forall m, In m deduce_forms -> size_matches m SzDontCare = false.
Proof. exact dont_care_no_form. Qed.
Print Assumptions C53_no_size.

Definition k_other (t : cxx) : nat := 24%nat.
Definition k_vec (t : cxx) : plain := mkPlain (XVector t) (SzLen (LenField "n")) CNone None.

Definition k_str : plain := mkPlain XString (SzLen (LenField "n")) CNone None.

Example C53_case :
  specialisations (CField "a" (mkPlain (XArray (XInt u16) 4) (SzBytes 8) CNone None)) = [KFixed] /\
  specialisations (CField "a" (k_vec (XInt u16))) = [KVariable] /\
  specialisations (CField "a" (k_vec (XRecord point))) = [KVectorOfRecords] /\
  specialisations (CField "a" (mkPlain (XArray (XRecord point) 4) SzDontCare CNone None))
    = [KArrayOfRecords] /\
  specialisations (CMaybe (CField "a" (k_vec (XInt u16))) (fun _ => true) ["n"]) = [KOptional] /\
  specialisations (CField "a" (k_vec (XFixStr 3))) = [] /\
  specialisations (CField "a" (k_vec (XVector (XInt u8)))) = [].
Proof. vm_compute. repeat split. Qed.

(** ** C54: a descriptor whose options are accepted gives a field with a reader and a
    writer exactly when its elements are supported; a type tag always does. *)
Theorem C54_descriptor : forall sgn other d opts p id,
  resolve sgn other d opts = Some p ->
  (field_like (CField id p) = true <-> supported d).
Proof. exact resolve_like. Qed.
Print Assumptions C54_descriptor.

Theorem C54_tag : forall other d opts p id,
  resolve_tag other d opts = Some p -> field_like (CField id p) = true.
Proof. exact resolve_tag_like. Qed.
Print Assumptions C54_tag.

(** [maybe] takes exactly the fields without a constraint that are not C arrays. *)
Theorem C54_maybe : forall base pred ids f,
  resolve_maybe base pred ids = Some f <->
  exists id p, base = CField id p /\ f = CMaybe base pred ids /\ p_constr p = CNone /\
    forall t n, p_type p <> XCArray t n.
Proof. exact resolve_maybe_iff. Qed.
Print Assumptions C54_maybe.

Theorem C54_maybe_reader : forall base pred ids f,
  resolve_maybe base pred ids = Some f -> specialisations f = [KOptional].
Proof. exact resolve_maybe_like. Qed.
Print Assumptions C54_maybe_reader.

(** [variance] takes exactly: alternatives of distinct types, distinct match values, and
    at most one option, which is a constraint. *)
Theorem C54_variance : forall szw tid id g ps opts f,
  resolve_variance szw tid id g ps opts = Some f <->
  exists k, (opts = [] /\ k = CNone \/ opts = [OptConstr k]) /\ f = CUnion id g ps k /\
    NoDup (map (fun p => tid (p_type p)) ps) /\ NoDup (match_values_of szw g).
Proof. exact resolve_variance_iff. Qed.
Print Assumptions C54_variance.

(** [fixed_array_field] takes a [fixed_string] as element, [c_arr_field] a
    [std::array], [vec_field] anything; the fields have no reader. *)
Theorem C54_descriptor_refuted :
  exists d1 d2 d3 opts, forall id,
    (exists p, resolve true k_other d1 [] = Some p /\ field_like (CField id p) = false) /\
    (exists p, resolve true k_other d2 [] = Some p /\ field_like (CField id p) = false) /\
    (exists p, resolve true k_other d3 opts = Some p /\ field_like (CField id p) = false) /\
    d1 = FixedArrayField (XFixStr 3) 2 /\ d2 = CArrField (XArray (XInt u8) 3) 2 /\
    d3 = VecField (XFixStr 3).
Proof.
  exists (FixedArrayField (XFixStr 3) 2), (CArrField (XArray (XInt u8) 3) 2), (VecField (XFixStr 3)),
    [OptSize (SzLen (LenField "n"))].
  intros id. repeat split; eexists; split; vm_compute; reflexivity.
Qed.
Print Assumptions C54_descriptor_refuted.

Example C54_case :
  supported (FixedArrayField (XArray (XInt u16) 2) 3) /\
  resolve true k_other (FixedArrayField (XArray (XInt u16) 2) 3) []
    = Some (mkPlain (XArray (XArray (XInt u16) 2) 3) (SzBytes 12) CNone None) /\
  ~ supported (FixedArrayField (XFixStr 3) 2) /\
  resolve_tag k_other (AsVec (XFloat 4)) [OptBound (Some 64%Z); OptSize (SzLen (LenField "n"))]
    = Some (mkPlain (XVector (XFloat 4)) (SzLen (LenField "n")) CNone (Some 64%Z)) /\
  resolve_tag k_other (AsVec (XFixStr 3)) [OptSize (SzLen (LenField "n"))] = None /\
  (exists f, resolve_maybe (CField "a" (k_vec (XInt u16))) (fun _ => true) ["n"] = Some f) /\
  (exists f, resolve_variance 8 (fun t => match t with XString => 1 | _ => 0 end)%Z "a"
     (GField "sel" u8 [(i32, 1%Z); (i32, 2%Z)]) [k_vec (XInt u8); k_str] [] = Some f).
Proof.
  split; [right; repeat constructor|]. split; [vm_compute; reflexivity|].
  split; [|split; [vm_compute; reflexivity|split; [vm_compute; reflexivity|
    split; eexists; vm_compute; reflexivity]]].
  intros [H|H]; inversion H.
Qed.

(** ** C55: the fields of the model are the code's.  The case of the model's reader and
    writer a field falls in is the specialisation the compiler selects. *)
Theorem C55_dispatch : forall sgn recsz f t k,
  to_field sgn recsz f = Some (t, k) -> field_like f = true ->
  specialisations f = [kind_of t].
Proof. exact to_field_kind. Qed.
Print Assumptions C55_dispatch.

(** An optional has its base's field and no constraint; a union has its alternatives, in
    order, each with its own constraint, and its own constraint besides. *)
Theorem C55_maybe : forall sgn recsz base pr ids t c,
  to_field sgn recsz (CMaybe base pr ids) = Some (t, c) ->
  c = CNone /\ exists b k, to_field sgn recsz base = Some (b, k) /\ t = FMaybe b pr ids.
Proof. exact to_field_maybe. Qed.
Print Assumptions C55_maybe.

Theorem C55_union : forall sgn recsz id g ps k t c,
  to_field sgn recsz (CUnion id g ps k) = Some (t, c) ->
  c = k /\ exists al, t = FUnion g al /\ a_len al = length ps /\
  forall i p, nth_error ps i = Some p ->
    exists u, to_field sgn recsz (CField id p) = Some (u, p_constr p) /\
              a_nth i al = Some (u, p_constr p).
Proof. exact to_field_union. Qed.
Print Assumptions C55_union.

(** The model has every field.  (A vector of records
    written without a descriptor might have no length.) *)
Theorem C55_covered : forall sgn recsz p id,
  field_like (CField id p) = true ->
  (is_kind KVectorOfRecords (CField id p) = true -> sz_variable (p_size p) = true) ->
  exists t, to_plain sgn recsz p = Some t.
Proof. exact to_plain_total. Qed.
Print Assumptions C55_covered.

(** The descriptors with types resolve as the descriptors of the model do. *)
Theorem C55_descriptor : forall sgn recsz other d d' opts p,
  described sgn recsz other d = Some d' ->
  resolve sgn other d opts = Some p ->
  describe d' opts = match to_plain sgn recsz p with
                     | Some t => Some (t, p_constr p)
                     | None => None
                     end.
Proof. exact resolve_describe. Qed.
Print Assumptions C55_descriptor.

Example C55_case :
  let recsz := fun _ => 8%Z in
  to_field true recsz (CField "a" (k_vec (XRecord point)))
    = Some (FVecRec point 8 (LenField "n") None, CNone) /\
  to_field true recsz (CMaybe (CField "a" (k_vec (XInt u16))) (fun _ => true) ["n"])
    = Some (FMaybe (FVar (TScalar u16) (LenField "n") None) (fun _ => true) ["n"], CNone) /\
  to_field true recsz (CUnion "a" (GField "sel" u8 [(i32, 1%Z)]) [k_str; k_vec (XInt u8)] CNone)
    = Some (FUnion (GField "sel" u8 [(i32, 1%Z)])
              (ACons (FVar (TScalar (SInt 1 true)) (LenField "n") None) CNone
              (ACons (FVar (TScalar u8) (LenField "n") None) CNone ANil)), CNone) /\
  described true recsz k_other (VecField (XInt u16)) = Some (DVec 24 (TScalar u16)) /\
  to_field true recsz (CField "a" (k_vec (XArray (XFloat 4) 3)))
    = Some (FVar (TArr 3 (TFloat 4)) (LenField "n") None, CNone) /\
  field_like (CField "a" (k_vec (XArray (XFloat 4) 3))) = true.
Proof.
  cbn zeta. do 5 (split; [reflexivity|]). vm_compute. reflexivity.
Qed.

(** ** C56: which casts of a fixed or variable-size field compile.  [cx]: through a
    constexpr stream; [foreign]: in the byte order that is not the host's. *)
Theorem C56_read : forall other cx foreign id p k,
  specialisations (CField id p) = [k] -> k = KFixed \/ k = KVariable ->
  wide_floats (p_type p) ->
  (read_compiles other cx foreign (p_type p) = true <->
   p_type p <> XVector (XInt SBool) /\
   (foreign = true -> no_floats (p_type p)) /\
   (cx = true -> ~ nested_c_array (p_type p))).
Proof. exact read_compiles_iff. Qed.
Print Assumptions C56_read.

Theorem C56_write : forall other cx foreign id p k,
  specialisations (CField id p) = [k] -> k = KFixed \/ k = KVariable ->
  wide_floats (p_type p) ->
  (write_compiles other cx foreign (p_type p) = true <->
   if foreign then no_floats (p_type p)
   else cx = true \/ p_type p <> XVector (XInt SBool)).
Proof. exact write_compiles_iff. Qed.
Print Assumptions C56_write.

(** A field of floating-point numbers and one of truth values, accepted by their
    descriptors, that cannot be cast. *)
Theorem C56_always_refuted :
  (exists p, resolve true k_other (FixedArrayField (XFloat 4) 3) [] = Some p /\
     specialisations (CField "a" p) = [KFixed] /\
     read_compiles k_other false true (p_type p) = false /\
     write_compiles k_other false true (p_type p) = false) /\
  (exists p, resolve true k_other (VecField (XInt SBool)) [OptSize (SzLen (LenField "n"))] = Some p /\
     specialisations (CField "a" p) = [KVariable] /\
     read_compiles k_other false false (p_type p) = false /\
     write_compiles k_other false false (p_type p) = false) /\
  (exists p, resolve true k_other (CArrField (XCArray (XInt u8) 3) 2) [] = Some p /\
     specialisations (CField "a" p) = [KFixed] /\
     read_compiles k_other true false (p_type p) = false /\
     write_compiles k_other true false (p_type p) = true).
Proof. repeat split; eexists; repeat split; vm_compute; reflexivity. Qed.
Print Assumptions C56_always_refuted.

Example C56_case :
  specialisations (CField "a" (k_vec (XArray (XInt u16) 2))) = [KVariable] /\
  wide_floats (XVector (XArray (XInt u16) 2)) /\
  read_compiles k_other true true (XVector (XArray (XInt u16) 2)) = true /\
  read_compiles k_other true true (XVector (XArray (XFloat 8) 2)) = false /\
  read_compiles k_other true false (XVector (XArray (XFloat 8) 2)) = true.
Proof.
  split; [vm_compute; reflexivity|]. split; [|vm_compute; tauto].
  intros w H. repeat match goal with L : leaf _ _ |- _ => inversion L; clear L; subst end.
Qed.

(** ** C57: where types have distinct ids, the alternatives of a variance are accepted
    iff no two have the same type; then storing a value selects the alternative it was
    read as. *)
Theorem C57_choices : forall tid ps,
  (forall p q, In p ps -> In q ps -> tid (p_type p) = tid (p_type q) -> p_type p = p_type q) ->
  (choices_unique tid ps = true <-> NoDup (map p_type ps)).
Proof. exact choices_unique_iff. Qed.
Print Assumptions C57_choices.

Theorem C57_assign : forall tid ps i p,
  choices_unique tid ps = true -> nth_error ps i = Some p ->
  variant_assign tid ps (p_type p) = Some i.
Proof. exact variant_assign_index. Qed.
Print Assumptions C57_assign.

Example C57_case :
  choices_unique (fun t => match t with XString => 1 | _ => 0 end)%Z [k_vec (XInt u8); k_str] = true /\
  variant_assign (fun t => match t with XString => 1 | _ => 0 end)%Z [k_vec (XInt u8); k_str] XString
    = Some 1%nat /\
  choices_unique (fun t => match t with XString => 1 | _ => 0 end)%Z
    [k_str; k_vec (XInt u8); mkPlain XString (SzLen (LenField "m")) CNone (Some 8%Z)] = false.
Proof. vm_compute. auto. Qed.

(** ** C58: the streams accepted are those that convert to bool and offer a read (write)
    or are constexpr streams. *)
Theorem C58_streams : forall s,
  (input_stream_like s = true <->
     st_bool s = true /\ (st_constexpr s = true \/ st_std_read s = true \/ st_read s = true)) /\
  (output_stream_like s = true <->
     st_bool s = true /\ (st_constexpr s = true \/ st_std_write s = true \/ st_write s = true)).
Proof. exact stream_like_iff. Qed.
Print Assumptions C58_streams.

(** A stream accepted for reading (writing) is read (written) through exactly
    one overload unless it is both a constexpr stream and readable (writeable). *)
Theorem C58_read : forall s, input_stream_like s = true ->
  ((exists o, read_overloads s = [o]) <-> ~ (st_constexpr s = true /\ st_readable s = true)).
Proof. exact read_overload_one. Qed.
Print Assumptions C58_read.

Theorem C58_write : forall s, output_stream_like s = true ->
  ((exists o, write_overloads s = [o]) <-> ~ (st_constexpr s = true /\ st_writeable s = true)).
Proof. exact write_overload_one. Qed.
Print Assumptions C58_write.

Theorem C58_always_refuted : exists s, input_stream_like s = true /\ output_stream_like s = true /\
  read_overloads s = [true; false] /\ write_overloads s = [true; false].
Proof. exists (mkST true false true false true true). vm_compute. auto. Qed.
Print Assumptions C58_always_refuted.

Example C58_case :
  input_stream_like (mkST false true false false false true) = true /\
  read_overloads (mkST false true false false false true) = [false] /\
  input_stream_like (mkST true false false false false true) = true /\
  read_overloads (mkST true false false false false true) = [true] /\
  input_stream_like (mkST false true false false false false) = false.
Proof. vm_compute. auto. Qed.

(** ** C59: the discriminant of every switch can be read exactly when none of them is
    also a length target. *)
Theorem C59_switch_reads : forall fs, wf fs = true -> (f_len fs <= 256)%nat ->
  (length (lengths fs) <= 64)%nat -> (length (discriminants fs) <= 64)%nat ->
  ~ In EmptyString (f_ids fs) ->
  (switch_reads fs = true <-> forall id, In id (discriminants fs) -> ~ In id (lengths fs)).
Proof. exact switch_reads_iff. Qed.
Print Assumptions C59_switch_reads.

(** A list the library accepts, with a field that is both, cannot be read. *)
Definition both : fields :=
  FCons "n" (fixed u8) CNone (
  FCons "data" (FVar (TScalar u8) (LenField "n") None) CNone (
  FCons "body" (FUnion (GField "n" u8 [(i32, 1%Z); (i32, 2%Z)])
                       (ACons (fixed u8) CNone (ACons (fixed u16) CNone ANil))) CNone FNil)).

Theorem C59_accepted_refuted : exists fs,
  accepted 8 fs = true /\ wf fs = true /\ switch_reads fs = false.
Proof. exists both. vm_compute. auto. Qed.
Print Assumptions C59_accepted_refuted.

Example C59_case :
  wf frame = true /\ switch_reads frame = true /\ discriminants frame = ["sel"] /\
  lengths frame = ["n"; "n"].
Proof. vm_compute. auto. Qed.
