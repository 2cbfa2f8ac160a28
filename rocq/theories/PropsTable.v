(** * C111: what each descriptor declares *)
From Coq Require Import String Lia Permutation.
From Verif Require Import TableSpec TableFacts.
Local Open Scope list_scope.
Local Open Scope Z_scope.

(** A [struct_field_list] compiles to a list of fields exactly when the table says so line
    by line, the ids are distinct, there are not too many fields, and fields use earlier ones
    (or themselves, as found in C32). *)
Theorem C111_exact : forall a ds fs, named fs ->
  (struct_field_list a ds = Some fs <->
   declares a [] ds fs /\ NoDup (f_ids fs) /\ small fs /\ uses_earlier_or_itself fs).
Proof. exact declares_exact. Qed.
Print Assumptions C111_exact.

(** The table is a function. *)
Theorem C111_unique : forall a G ds fs fs',
  declares a G ds fs -> declares a G ds fs' -> fs = fs'.
Proof. exact declares_unique. Qed.
Print Assumptions C111_unique.

(** The order in which the options are written has no effect, anywhere in a declaration:
    the struct, if any, is the same. *)
Theorem C111_order : forall a ds ds', Forall2 reordered ds ds' ->
  struct_field_list a ds = struct_field_list a ds'.
Proof. exact declare_reordered. Qed.
Print Assumptions C111_order.

Definition tb_abi : abi :=
  mkAbi 8 true (fun _ => 24%nat) (fun _ => 8)
    (fun x => match x with XFloat _ => 1 | XRecord _ => 2 | XVector _ => 3 | _ => 4 end).
Definition tb_u (w : nat) : cxx := XInt (SInt w false).
Definition tb_decl : list (ident * decl) :=
  [("n"%string, DField (BasicField (tb_u 4)) [OptConstr (CCmp OLt (SInt 4 false) 100); OptSize (SzBytes 3)]);
   ("v"%string, DField (VecField (XArray (tb_u 2) 5)) [OptBound (Some 64); OptSize (SzLen (LenField "n"%string))]);
   ("s"%string, DMaybe (CStrField 7) [] (fun _ => true) ["n"%string]);
   ("u"%string, DVariance
      (TType [TAccessor "n"%string;
              TSwitch [TCase (MInt (SInt 4 true) 1) (TTag (AsTrivial (XFloat 8)) []);
                       TCase (MInt (SInt 4 true) 2)
                         (TTag (AsVec (tb_u 1)) [OptConstr (CFun (fun _ => true)); OptSize (SzLen (LenField "n"%string))])]]) [])].
(** The same with the options in another order and without the optional C string, which is
    refused. *)
Definition tb_decl' : list (ident * decl) :=
  [("n"%string, DField (BasicField (tb_u 4)) [OptSize (SzBytes 3); OptConstr (CCmp OLt (SInt 4 false) 100)]);
   ("v"%string, DField (VecField (XArray (tb_u 2) 5)) [OptSize (SzLen (LenField "n"%string)); OptBound (Some 64)]);
   ("u"%string, DVariance
      (TType [TAccessor "n"%string;
              TSwitch [TCase (MInt (SInt 4 true) 1) (TTag (AsTrivial (XFloat 8)) []);
                       TCase (MInt (SInt 4 true) 2)
                         (TTag (AsVec (tb_u 1)) [OptSize (SzLen (LenField "n"%string)); OptConstr (CFun (fun _ => true))])]]) [])].
Definition tb_fields : fields :=
  FCons "n"%string (FFixed (TScalar (SInt 4 false)) 3) (CCmp OLt (SInt 4 false) 100)
  (FCons "v"%string (FVar (TArr 5 (TScalar (SInt 2 false))) (LenField "n"%string) (Some 64)) CNone
  (FCons "u"%string
     (FUnion (GField "n"%string (SInt 4 false) [(SInt 4 true, 1); (SInt 4 true, 2)])
        (ACons (FFixed (TFloat 8) 8) CNone
        (ACons (FVar (TScalar (SInt 1 false)) (LenField "n"%string) None) (CFun (fun _ => true)) ANil))) CNone FNil)).

Ltac easy_false := match goal with H : False |- _ => destruct H end.
Ltac split_or := repeat match goal with H : _ \/ _ |- _ => destruct H as [H|H] end.

Example C111_case :
  named tb_fields /\ declares tb_abi [] tb_decl' tb_fields /\
  struct_field_list tb_abi tb_decl' = Some tb_fields /\
  Forall2 reordered tb_decl' [nth 0 tb_decl ("", DField StrField [])%string; nth 1 tb_decl ("", DField StrField [])%string;
                              nth 3 tb_decl ("", DField StrField [])%string] /\
  struct_field_list tb_abi tb_decl = None.
Proof.
  split; [|split; [|split; [vm_compute; reflexivity|split; [|vm_compute; reflexivity]]]].
  - split; cbn [tb_fields f_ids f_list In].
    + intros H. split_or; first [discriminate | easy_false].
    + intros id t k H. split_or; try easy_false;
        match goal with H : _ = _ |- _ => injection H as <- <- <- end; cbn;
        intros H; split_or; first [discriminate | easy_false].
  - constructor; [|constructor; [|constructor; [|constructor]]].
    + apply sy_field.
      apply (ps_basic tb_abi (SInt 4 false) _ (Some (SzBytes 3)) (Some (CCmp OLt (SInt 4 false) 100)) 3); cbn.
      * apply Permutation_refl.
      * right. reflexivity.
      * lia.
    + apply sy_field. apply (ps_vector tb_abi _ _ _ _ None (Some (Some 64))); [|apply Permutation_refl].
      apply el_arr, el_num. constructor.
    + apply (sy_variance tb_abi _ _ _
        [(AsTrivial (XFloat 8), []); (AsVec (tb_u 1), [OptSize (SzLen (LenField "n"%string)); OptConstr (CFun (fun _ => true))])]
        [1; 2] [XFloat 8; XVector (tb_u 1)] _ _ None).
      * apply (gs_field _ "n"%string (SInt 4 false) 3
          [((SInt 4 true, 1), (AsTrivial (XFloat 8), []));
           ((SInt 4 true, 2), (AsVec (tb_u 1), [OptSize (SzLen (LenField "n"%string)); OptConstr (CFun (fun _ => true))]))]).
        reflexivity.
      * discriminate.
      * constructor; [|constructor; [|constructor]].
        -- apply (as_num tb_abi (XFloat 8) (TFloat 8) [] None None 8).
           ++ constructor.
           ++ apply perm_nil.
           ++ left. auto.
           ++ cbn. lia.
        -- apply (as_vector tb_abi (tb_u 1) (TScalar (SInt 1 false)) _ _ (Some (CFun (fun _ => true))) None);
             [constructor|apply Permutation_refl].
      * cbn. repeat constructor; cbn; intuition discriminate.
      * vm_compute. repeat constructor; cbn; intuition discriminate.
      * apply perm_nil.
  - cbn [nth tb_decl]. constructor; [|constructor; [|constructor; [|constructor]]].
    + constructor. apply perm_swap.
    + constructor. apply perm_swap.
    + constructor; [apply perm_nil|]. constructor. constructor; [|constructor; [|constructor]]; constructor.
      * apply perm_nil.
      * apply perm_swap.
Qed.
