(** * C110: a struct as it is declared *)
From Coq Require Import String Lia.
From Verif Require Import DeclareSpec DeclareFacts.
Local Open Scope list_scope.
Local Open Scope Z_scope.

(** The fields come out in the order they are written, with their ids. *)
Theorem C110_ids : forall a ds fs, struct_field_list a ds = Some fs -> f_ids fs = map fst ds.
Proof. exact struct_field_list_ids. Qed.
Print Assumptions C110_ids.

(** Which lists of fields are declared by some sequence of descriptors, options and guides. *)
Theorem C110_exact : forall a fs, (forall gs, In gs (lists fs) -> named gs) ->
  (declared a fs <-> forall gs, In gs (lists fs) ->
     fields_ok a [] gs /\ NoDup (f_ids gs) /\ small gs /\ uses_earlier_or_itself gs).
Proof. exact declared_iff. Qed.
Print Assumptions C110_exact.

(** What is declared is accepted in the sense of C32: every theorem about accepted schemas
    is about all declared structs. *)
Theorem C110_accepted : forall a fs, declared a fs -> accepted (a_szw a) fs = true.
Proof. exact declared_accepted. Qed.
Print Assumptions C110_accepted.

(** It is well formed in the sense of the theorems about reading and writing, if names are
    not empty, no field uses itself, types have a size and no [magic_number] is wider than
    its type. *)
Theorem C110_wf : forall a fs, declared a fs -> sizes_fields fs = true ->
  (forall gs, In gs (lists fs) -> named gs) ->
  (forall gs id t k, In gs (lists fs) -> In (id, t, k) (f_list gs) -> ~ In id (uses t)) ->
  wf fs = true.
Proof. exact declared_wf. Qed.
Print Assumptions C110_wf.

(** And it is well typed, if constraints take their fields' values and lengths are given by
    integers. *)
Theorem C110_typed : forall a fs, declared a fs ->
  (forall gs, In gs (lists fs) -> constraints_taken gs /\ lengths_are_integers gs) -> typed fs = true.
Proof. exact declared_typed. Qed.
Print Assumptions C110_typed.

(** So a struct that is declared is read and written: neither cast meets a case that the
    types exclude, whatever the stream, and what is read has the types declared. *)
Theorem C110_casts : forall a fs, declared a fs -> sizes_fields fs = true ->
  (forall gs, In gs (lists fs) -> named gs /\ constraints_taken gs /\ lengths_are_integers gs) ->
  (forall gs id t k, In gs (lists fs) -> In (id, t, k) (f_list gs) -> ~ In id (uses t)) ->
  (forall c S alloc s o s' ev, delivers S ->
     rrun S alloc (struct_cast c fs) s = (o, s', ev) ->
     o <> Stuck /\ forall vs, o = Ok vs -> has_fields fs vs) /\
  (forall c S vs s o s' ch, has_fields fs vs ->
     wrun S (stream_cast c fs vs) s = (o, s', ch) -> o <> Stuck).
Proof. exact declared_casts. Qed.
Print Assumptions C110_casts.

(** The alternatives of a union have different C++ types: the variant's alternative is
    determined by the type of its value. *)
Theorem C110_alternatives : forall a fs gs id g al k, declared a fs -> In gs (lists fs) ->
  In (id, FUnion g al, k) (f_list gs) ->
  exists xs, Forall2 (alt_ok a) xs (a_types al) /\ NoDup xs /\ xs <> [].
Proof. exact declared_alternatives. Qed.
Print Assumptions C110_alternatives.

(** A switch on a field has an earlier integer, with that field's type, to switch on, and
    one case for each alternative. *)
Theorem C110_discriminant : forall a fs gs pre id d s cases al k post, declared a fs -> In gs (lists fs) ->
  f_list gs = pre ++ (id, FUnion (GField d s cases) al, k) :: post ->
  length cases = a_len al /\
  exists n k', In (d, FFixed (TScalar s) n, k') pre.
Proof. exact declared_discriminant. Qed.
Print Assumptions C110_discriminant.

(** Floating-point numbers are alternatives or elements, never fields. *)
Theorem C110_no_float_field : forall a fs gs id w n k, declared a fs -> In gs (lists fs) ->
  ~ In (id, FFixed (TFloat w) n, k) (f_list gs) /\
  forall p ids, ~ In (id, FMaybe (FFixed (TFloat w) n) p ids, k) (f_list gs).
Proof. exact declared_no_float. Qed.
Print Assumptions C110_no_float_field.

(** A header with a magic number and a length, a payload, an optional checksum, and a
    union of a double and a record. *)
Definition ex_abi : abi :=
  mkAbi 8 true (fun _ => 24%nat) (fun _ => 8)
    (fun x => match x with XFloat _ => 1 | XRecord _ => 2 | XInt _ => 3 | _ => 4 end).
Definition u (w : nat) : cxx := XInt (SInt w false).
Definition ex_point : fields :=
  FCons "x"%string (FFixed (TScalar (SInt 4 true)) 4) CNone
  (FCons "y"%string (FFixed (TScalar (SInt 4 true)) 3) CNone FNil).
Definition ex_decl : list (ident * decl) :=
  [("magic"%string, DField (MagicNumber (u 4) (SzBytes 4) (SInt 4 false) 16909060) []);
   ("len"%string, DField (BasicField (u 2)) [OptConstr (CCmp OLt (SInt 2 false) 1000)]);
   ("kind"%string, DField (BasicField (u 1)) []);
   ("data"%string, DField (VecField (XArray (XFloat 4) 2)) [OptSize (SzLen (LenField "len"%string)); OptBound (Some 4096)]);
   ("sum"%string, DMaybe (BasicField (u 4)) [] (fun _ => true) ["kind"%string]);
   ("body"%string, DVariance
      (TType [TAccessor "kind"%string;
              TSwitch [TCase (MInt (SInt 4 true) 1) (TTag (AsTrivial (XFloat 8)) []);
                       TCase (MInt (SInt 4 true) 2) (TTag (AsStruct (XRecord ex_point)) [])]]) [])].
Definition ex_fields : fields :=
  FCons "magic"%string (FFixed (TScalar (SInt 4 false)) 4) (CCmp OEq (SInt 4 false) 16909060)
  (FCons "len"%string (FFixed (TScalar (SInt 2 false)) 2) (CCmp OLt (SInt 2 false) 1000)
  (FCons "kind"%string (FFixed (TScalar (SInt 1 false)) 1) CNone
  (FCons "data"%string (FVar (TArr 2 (TFloat 4)) (LenField "len"%string) (Some 4096)) CNone
  (FCons "sum"%string (FMaybe (FFixed (TScalar (SInt 4 false)) 4) (fun _ => true) ["kind"%string]) CNone
  (FCons "body"%string
     (FUnion (GField "kind"%string (SInt 1 false) [(SInt 4 true, 1); (SInt 4 true, 2)])
        (ACons (FFixed (TFloat 8) 8) CNone (ACons (FStruct ex_point) CNone ANil))) CNone FNil))))).

Ltac easy_false := match goal with H : False |- _ => destruct H end.

Ltac split_or := repeat match goal with H : _ \/ _ |- _ => destruct H as [H|H] end.

Example C110_case :
  struct_field_list ex_abi ex_decl = Some ex_fields /\ declared ex_abi ex_fields /\
  sizes_fields ex_fields = true /\
  (forall gs, In gs (lists ex_fields) -> named gs) /\
  (forall gs, In gs (lists ex_fields) -> constraints_taken gs /\ lengths_are_integers gs) /\
  (forall gs id t k, In gs (lists ex_fields) -> In (id, t, k) (f_list gs) -> ~ In id (uses t)) /\
  (* refused: a double field, two alternatives of one type, a discriminant declared later *)
  struct_field_list ex_abi [("d"%string, DField (BasicField (XFloat 8)) [])] = None /\
  struct_field_list ex_abi
    [("k"%string, DField (BasicField (u 1)) []);
     ("v"%string, DVariance (TType [TAccessor "k"%string;
        TSwitch [TCase (MInt (SInt 4 true) 1) (TTag (AsTrivial (u 4)) []);
                 TCase (MInt (SInt 4 true) 2) (TTag (AsTrivial (u 4)) [])]]) [])] = None /\
  struct_field_list ex_abi
    [("v"%string, DVariance (TType [TAccessor "k"%string;
        TSwitch [TCase (MInt (SInt 4 true) 1) (TTag (AsTrivial (u 4)) [])]]) []);
     ("k"%string, DField (BasicField (u 1)) [])] = None.
Proof.
  assert (E : struct_field_list ex_abi ex_decl = Some ex_fields) by (vm_compute; reflexivity).
  assert (L : lists ex_fields = [ex_fields; ex_point]) by reflexivity.
  split; [exact E|]. split; [|split; [reflexivity|split; [|split; [|split]]]].
  - intros gs H. rewrite L in H. destruct H as [<-|[<-|[]]]; [exists ex_decl; exact E|].
    exists [("x"%string, DField (BasicField (XInt (SInt 4 true))) []);
            ("y"%string, DField (BasicField (XInt (SInt 4 true))) [OptSize (SzBytes 3)])].
    vm_compute. reflexivity.
  - clear E. intros gs H. rewrite L in H. clear L. destruct H as [<-|[<-|[]]]; split; cbn [ex_fields ex_point f_ids f_list In].
    + intros H. split_or; first [discriminate | easy_false].
    + intros id t k H. split_or; try easy_false;
        match goal with H : _ = _ |- _ => injection H as <- <- <- end; cbn;
        intros H; split_or; first [discriminate | easy_false].
    + intros H. split_or; first [discriminate | easy_false].
    + intros id t k H. split_or; try easy_false;
        match goal with H : _ = _ |- _ => injection H as <- <- <- end; cbn;
        intros H; split_or; first [discriminate | easy_false].
  - clear E. intros gs H. rewrite L in H. clear L.
    destruct H as [<-|[<-|[]]]; split; unfold constraints_taken, lengths_are_integers;
      cbn [ex_fields ex_point f_list In].
    + intros id t k H. split_or; try easy_false; injection H as <- <- <-; (split; [reflexivity|]);
        intros g al u k' E; try discriminate; injection E as <- <-; cbn; intros H; split_or; try easy_false;
        injection H as <- <-; reflexivity.
    + intros pre id t k post d E Hd.
      do 7 (destruct pre as [|? pre];
            [cbn in E; try discriminate; injection E as <- <- <- _; cbn in Hd; split_or;
             first [easy_false|subst d; exists (SInt 2 false), 2%nat, (CCmp OLt (SInt 2 false) 1000); cbn; auto]
            |cbn in E; try discriminate; injection E as <- E]).
    + intros id t k H. split_or; try easy_false; injection H as <- <- <-; (split; [reflexivity|]);
        intros g al u k' E; discriminate.
    + intros pre id t k post d E Hd.
      do 3 (destruct pre as [|? pre]; [cbn in E; try discriminate; injection E as <- <- <- _; cbn in Hd; split_or;
            try easy_false|cbn in E; try discriminate; injection E as <- E]).
  - clear E. intros gs id t k H. rewrite L in H. clear L. destruct H as [<-|[<-|[]]]; cbn [ex_fields ex_point f_list In];
      intros H; split_or; try easy_false;
      match goal with H : _ = _ |- _ => injection H as <- <- <- end; cbn;
      intros H; split_or; first [discriminate | easy_false].
  - repeat split; vm_compute; reflexivity.
Qed.
