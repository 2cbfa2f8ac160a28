(** The three sources of undefined behaviour on the read path are sources. *)
From Coq Require Import ZifyBool ZifyNat.
From Verif Require Import Prog Read Spec PropDefs Typing ProgFacts BytesFacts ReadFacts ReadLemmas Safety FloatFacts.
Local Open Scope Z_scope.

Lemma chunks_repeat (b : Z) w : forall n, chunks w n (repeat b (n * w)) = repeat (repeat b w) n.
Proof.
  induction n; simpl; auto. rewrite repeat_app, firstn_app, skipn_app, repeat_length, Nat.sub_diag.
  rewrite firstn_all2, skipn_all2 by (rewrite repeat_length; lia). simpl. rewrite app_nil_r.
  f_equal. apply IHn.
Qed.

(** Bytes all 2 are no [bool]s. *)
Lemma load_twos c t : ct_wf t = true -> no_bool t = false -> load c t (repeat 2 (csize t)) = None.
Proof.
  induction t as [s|n t IH|n|w]; intros W B; try discriminate.
  - destruct s; [discriminate|]. simpl. unfold load_bits, is_host_order.
    destruct (c_host c), (endian_eqb _ _); reflexivity.
  - cbn [ct_wf] in W. apply andb_prop in W as [W1 W2]. apply Nat.ltb_lt in W1. cbn [no_bool] in B.
    cbn [load csize]. rewrite chunks_repeat. destruct n as [|n]; [lia|]. cbn [repeat map sequence].
    rewrite IH by auto. reflexivity.
Qed.

(** Bytes all 255 are a NaN. *)
Lemma load_nan c w : ct_wf (TFloat w) = true ->
  exists z, load c (TFloat w) (repeat 255 (csize (TFloat w))) = Some (VF w z) /\ fdec w z = FNaN.
Proof.
  intros W. cbn [ct_wf] in W. destruct (ffmt w) as [f|] eqn:F; [|discriminate].
  destruct (fmt_ex _ _ F) as (eb & mb & [(-> & _)|(-> & _)]); cbn [load csize]; eexists; (split; [reflexivity|]);
    unfold load_bits, is_host_order; destruct (c_host c), (c_wire c); vm_compute; reflexivity.
Qed.

Lemma load_ones c n : load c (TFixStr n) (repeat 1 (S n)) = Some (VSeq (map VZ (repeat 1 (S n)))).
Proof. reflexivity. Qed.

Lemma cstr_ones n : cstr (repeat 1 n) = None.
Proof. induction n; simpl; auto. rewrite IHn. auto. Qed.

Lemma read_whole c id t k bs v : ct_wf t = true -> length bs = csize t -> load c t bs = Some v ->
  rmem (struct_cast c (FCons id (FFixed t (csize t)) k FNil)) bs =
  match check k v with
  | CTrue => (Ok [v], [])
  | CFalse => (Err (ValidationFailure, id), [])
  | CUndef => (UB, [])
  | CStuck => (Stuck, [])
  end.
Proof.
  intros W L E. apply one_field_constraint. unfold struct_cast. cbn [read_fields].
  rewrite rmem_bind, rmem_maperr, rmem_bind. cbn [read_ty]. unfold read_fixed. rewrite Nat.ltb_irrefl.
  cbn [rmem]. rewrite L, Nat2Z.id, Z.leb_refl, firstn_all2, skipn_all2 by lia.
  unfold overlay. rewrite L, Nat.sub_diag, app_nil_r, E. reflexivity.
Qed.

Lemma rsafe_mem {E A} (Q : A -> Prop) (p : rprog E A) : rsafe False Q p -> forall bs, Forall byte_ok bs ->
  fst (rmem p bs) <> UB.
Proof.
  induction p as [| | | |n e k IH|]; cbn [rsafe rmem]; intros Hs bs B; try (cbn; congruence); try tauto; auto.
  destruct (Z.leb_spec n (Z.of_nat (length bs))); [|cbn; congruence].
  pose proof B as B'. rewrite <- (firstn_skipn (Z.to_nat n) bs) in B'. apply Forall_app in B'. destruct B' as [B1 B2].
  apply IH; auto. apply Hs; auto. rewrite firstn_length. lia.
Qed.

(** One field of constant size, declared as wide as its type: undefined behaviour can be
    caused exactly if it is not plain. *)
Lemma ub_reachable c id t k : let fs := FCons id (FFixed t (csize t)) k FNil in
  wf fs = true -> typed fs = true -> k <> CStrAny [] ->
  ((exists bs, Forall byte_ok bs /\ fst (rmem (struct_cast c fs) bs) = UB) <-> plain_fields fs = false).
Proof.
  intros fs W T NE. split.
  - intros (bs & B & U). destruct (plain_fields fs) eqn:P; auto. exfalso.
    exact (rsafe_mem _ _ (struct_cast_safe c False fs W T (or_introl P)) bs B U).
  - intros P. subst fs. assert (W' : ct_wf t = true).
    { unfold wf in W. cbn in W. destruct (ct_wf t); auto. }
    assert (K : constr_ok (FFixed t (csize t)) k = true).
    { unfold typed in T. cbn in T. destruct (constr_ok (FFixed t (csize t)) k); auto; rewrite ?andb_false_r in T; discriminate. }
    cbn in P. rewrite andb_true_r in P. destruct (no_bool t) eqn:B.
    + cbn in P. destruct k as [|o s lit|s lits|neg lit|neg lit|lits|o w lit|w lits|f]; try discriminate.
      * destruct s; [|discriminate]. destruct t; try discriminate.
        destruct (load_nan c w0 W') as (z & L & N). exists (repeat 255 (csize (TFloat w0))). split.
        { apply Forall_forall. intros x Hx. apply repeat_spec in Hx. subst. unfold byte_ok. lia. }
        rewrite (read_whole c id _ _ _ _ W' (repeat_length _ _) L). cbn [check as_int]. rewrite N. reflexivity.
      * destruct s; [|discriminate]. destruct t; try discriminate.
        destruct (load_nan c w0 W') as (z & L & N). exists (repeat 255 (csize (TFloat w0))). split.
        { apply Forall_forall. intros x Hx. apply repeat_spec in Hx. subst. unfold byte_ok. lia. }
        rewrite (read_whole c id _ _ _ _ W' (repeat_length _ _) L). cbn [check as_int]. rewrite N. reflexivity.
      * destruct t; try discriminate. exists (repeat 1 (S n)). split.
        { apply Forall_forall. intros x Hx. apply repeat_spec in Hx. subst. unfold byte_ok. lia. }
        rewrite (read_whole c id _ _ _ _ W' (repeat_length _ _) (load_ones c n)). cbn [check].
        rewrite (proj2 (chars_of_iff _ _) eq_refl). unfold fixed_string_eq. rewrite cstr_ones. destruct neg; reflexivity.
      * destruct t; try discriminate. exists (repeat 1 (S n)). split.
        { apply Forall_forall. intros x Hx. apply repeat_spec in Hx. subst. unfold byte_ok. lia. }
        rewrite (read_whole c id _ _ _ _ W' (repeat_length _ _) (load_ones c n)). cbn [check].
        rewrite (proj2 (chars_of_iff _ _) eq_refl). destruct lits as [|lit lits]; [congruence|]. cbn [str_any].
        unfold fixed_string_eq. rewrite cstr_ones. reflexivity.
    + exists (repeat 2 (csize t)). split.
      { apply Forall_forall. intros x Hx. apply repeat_spec in Hx. subst. unfold byte_ok. lia. }
      unfold struct_cast. cbn [read_fields].
      rewrite rmem_bind, rmem_maperr, rmem_bind. cbn [read_ty]. unfold read_fixed. rewrite Nat.ltb_irrefl.
      cbn [rmem]. rewrite repeat_length, Nat2Z.id, Z.leb_refl.
      rewrite firstn_all2 by (rewrite repeat_length; lia). unfold overlay.
      rewrite repeat_length, Nat.sub_diag, app_nil_r, load_twos by auto. reflexivity.
Qed.
