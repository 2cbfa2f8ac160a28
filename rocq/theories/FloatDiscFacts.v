(** * Facts about discriminants and match values that are not both integers *)
From Coq Require Import Lia ZifyBool ZifyNat String.
From Verif Require Import FloatDisc FloatDiscSpec WSpec PropDefs FloatFacts MixedFacts BytesFacts ReadFacts WExact ExactFacts ReadFinal WriteFacts StaticSpec Safety Typing ProgFacts RTrip Rewrite FloatLenFacts.
Local Open Scope list_scope.
Local Open Scope Z_scope.

(** ** Comparing *)

Lemma num_eqb_iff a b : num_eqb a b = true <-> equal_num a b.
Proof.
  split.
  - destruct a, b; cbn [num_eqb]; intros H; try discriminate; try (apply feqb_iff in H); try (constructor; auto; fail).
    constructor. destruct H as [H1 H2]. split; congruence.
  - intros []; cbn [num_eqb]; auto; apply feqb_iff; auto. destruct H as [H1 H2]. split; congruence.
Qed.

Lemma as_num_typed t v : (exists s z, t = TScalar s /\ v = VZ z) \/ (exists u w z, t = TFloat u /\ v = VF w z) ->
  exists a, as_num t v = Some a.
Proof. intros [(s & z & -> & ->)|(u & w & z & -> & ->)]; cbn; eauto. Qed.

(** The first case that is equal. *)
Fixpoint first_eq (a : mval) (cases : list mval) : option nat :=
  match cases with
  | [] => None
  | m :: cases' => if num_eqb a m then Some O else option_map S (first_eq a cases')
  end.

Lemma read_first e id t cases v a : lookup e id = Some v -> as_num t v = Some a ->
  deduce_type e (read_guide id t cases) = Some (first_eq a cases).
Proof.
  intros L A. unfold read_guide. cbn [deduce_type]. induction cases as [|m cases IH]; cbn [map eval_ladder first_eq lookups]; auto.
  rewrite L, A. destruct (num_eqb a m); auto. rewrite IH. auto.
Qed.

Lemma first_some a cases : forall i, first_eq a cases = Some i <->
  (exists m, nth_error cases i = Some m /\ equal_num a m) /\
  forall j m, (j < i)%nat -> nth_error cases j = Some m -> ~ equal_num a m.
Proof.
  induction cases as [|m cases IH]; intros i; cbn [first_eq].
  - split; [discriminate|]. intros [(m & H & _) _]. destruct i; discriminate.
  - destruct (num_eqb a m) eqn:E.
    + split.
      * intros H; inversion H; subst. split; [|lia]. exists m. split; auto. apply num_eqb_iff; auto.
      * intros [_ H]. destruct i; auto. exfalso. apply (H O m); [lia|reflexivity|apply num_eqb_iff; auto].
    + assert (NE : ~ equal_num a m) by (rewrite <- num_eqb_iff; congruence).
      destruct i as [|i].
      * split; [destruct (first_eq a cases); discriminate|]. intros [(m' & H & H') _]. inversion H; subst. contradiction.
      * specialize (IH i). transitivity (first_eq a cases = Some i).
        { destruct (first_eq a cases); cbn; split; intros H; inversion H; auto. }
        rewrite IH. cbn [nth_error]. split; intros [H1 H2]; split; auto.
        -- intros [|j] m' Hj Hn; [inversion Hn; subst; auto|]. eapply H2; [|exact Hn]. lia.
        -- intros j m' Hj Hn. apply (H2 (S j)); [lia|exact Hn].
Qed.

Lemma first_none a cases : first_eq a cases = None <-> Forall (fun m => ~ equal_num a m) cases.
Proof.
  induction cases as [|m cases IH]; cbn [first_eq].
  - split; auto.
  - destruct (num_eqb a m) eqn:E.
    + split; [discriminate|]. intros H; inversion H; subst. apply num_eqb_iff in E. contradiction.
    + transitivity (first_eq a cases = None); [destruct (first_eq a cases); cbn; split; congruence|].
      rewrite IH. split; intros H; [constructor; auto; rewrite <- num_eqb_iff; congruence|inversion H; auto].
Qed.

Lemma settled_first e len i : (i < len)%nat -> deduce_type e (settled len i) = Some (Some i).
Proof.
  intros H. unfold settled. cbn [deduce_type].
  assert (G : forall len k, (k <= i < k + len)%nat ->
    eval_ladder e (map (fun j : nat => ((fun _ : list val => Nat.eqb j i), @nil ident)) (seq k len)) = Some (Some (i - k)%nat)).
  { clear. induction len as [|len IH]; intros k Hk; [lia|]. cbn [seq map eval_ladder lookups].
    destruct (Nat.eqb k i) eqn:E.
    - apply Nat.eqb_eq in E. subst. rewrite Nat.sub_diag. auto.
    - apply Nat.eqb_neq in E. rewrite IH by lia. cbn. f_equal. f_equal. lia. }
  rewrite G by lia. rewrite Nat.sub_0_r. auto.
Qed.

(** ** Reading *)

Lemma first_field' c n t w v bs rest e :
  rmem (struct_cast c (FCons n (FFixed t w) CNone FNil)) bs = (Ok [v], rest) ->
  rmem (read_ty c e (FFixed t w)) bs = (Ok v, rest).
Proof.
  intros H. unfold struct_cast in H. cbn [read_fields] in H.
  set (e0 := mk_env _ _) in H.
  assert (I : forall e1 e2, read_ty c e1 (FFixed t w) = read_ty c e2 (FFixed t w)) by reflexivity.
  rewrite (I _ e) in H. remember (read_ty c e (FFixed t w)) as p. clear Heqp I e0. revert bs H.
  induction p as [a|r| | |m r g IH|m g IH]; intros bs R; cbn in *; try discriminate.
  - now inversion R.
  - destruct (_ <=? _); [|discriminate]. eauto.
  - eauto.
Qed.

(** The fields read so far, when the union is reached. *)
Definition at_union (n : ident) (t : ctype) (w : nat) (id : ident) (al : alts) (k : constr) (post : fields) (v : val) : env :=
  update (mk_env (switched n t w id (settled 0 0) al k post) (default_fields (switched n t w id (settled 0 0) al k post))) n v.

Lemma at_union_lookup n t w id al k post v : lookup (at_union n t w id al k post v) n = Some v.
Proof. unfold at_union, switched. cbn [mk_env default_fields update lookup]. rewrite String.eqb_refl. cbn [lookup]. rewrite String.eqb_refl. auto. Qed.

Lemma switched_read c n t w id g al k post bs v rest :
  rmem (struct_cast c (FCons n (FFixed t w) CNone FNil)) bs = (Ok [v], rest) ->
  rmem (fl_struct_cast c (switched n t w id g al k post)) bs =
  rmem (rbind (rbind (rmaperr (fun r => (r, id)) (rbind (fl_read_ty c (at_union n t w id al k post v) (FUnion g al)) (rcheck k)))
         (fun u => rbind (fl_read_fields c (update (at_union n t w id al k post v) id u) post) (fun vs => RRet (u :: vs))))
         (fun vs => RRet (v :: vs))) rest.
Proof.
  intros H. unfold fl_struct_cast, switched.
  match goal with |- rmem (fl_read_fields c ?e (FCons n ?u CNone ?fs)) bs = _ =>
    change (fl_read_fields c e (FCons n u CNone fs)) with
      (rbind (rmaperr (fun r => (r, n)) (rbind (read_ty c e u) (rcheck CNone)))
          (fun v => rbind (fl_read_fields c (update e n v) fs) (fun vs => RRet (v :: vs)))) end.
  rewrite rmem_bind, rmem_maperr, rmem_bind, (first_field' c n t w v bs rest _ H). reflexivity.
Qed.

Lemma nd_read c n t w id cases al k post bs v rest :
  rmem (struct_cast c (FCons n (FFixed t w) CNone FNil)) bs = (Ok [v], rest) ->
  (forall i, chooses t v cases i ->
   rmem (nd_struct_cast c n t w id cases al k post) bs =
   rmem (fl_struct_cast c (switched n t w id (settled (length cases) i) al k post)) bs) /\
  (chooses_none t v cases ->
   rmem (nd_struct_cast c n t w id cases al k post) bs = (Err (TypeDeductionFailure, id), rest)).
Proof.
  intros H. unfold nd_struct_cast. fold (switched n t w id (read_guide n t cases) al k post). split.
  - intros i (a & A & X). rewrite !(switched_read c n t w id _ al k post bs v rest H).
    apply first_some in X. cbn [fl_read_ty].
    rewrite (read_first _ n t cases v a (at_union_lookup _ _ _ _ _ _ _ _) A), X, settled_first; auto.
    apply first_some in X. destruct X as [(m & N & _) _]. apply nth_error_Some. congruence.
  - intros (a & A & X). rewrite (switched_read c n t w id _ al k post bs v rest H).
    apply first_none in X. cbn [fl_read_ty].
    rewrite (read_first _ n t cases v a (at_union_lookup _ _ _ _ _ _ _ _) A), X. reflexivity.
Qed.

(** What is read holds the alternative that was chosen. *)
Lemma nd_read_alt c n t w id cases al k post bs v rest x i vs rest' a :
  rmem (struct_cast c (FCons n (FFixed t w) CNone FNil)) bs = (Ok [v], rest) -> as_num t v = Some a ->
  rmem (nd_struct_cast c n t w id cases al k post) bs = (Ok (v :: VAlt i x :: vs), rest') ->
  chooses t v cases i.
Proof.
  intros H A R. exists a. split; auto. apply first_some.
  unfold nd_struct_cast in R. fold (switched n t w id (read_guide n t cases) al k post) in R.
  rewrite (switched_read c n t w id _ al k post bs v rest H) in R. cbn [fl_read_ty] in R.
  rewrite (read_first _ n t cases v a (at_union_lookup _ _ _ _ _ _ _ _) A) in R.
  destruct (first_eq a cases) as [j|]; [|discriminate]. f_equal.
  rewrite !rmem_bind, rmem_maperr, !rmem_bind in R.
  destruct (rmem (fl_read_alts c _ al j) rest) as [[y|e0| | |] r1]; try discriminate.
  cbn [rmem] in R. unfold rcheck in R. destruct (check k (VAlt j y)); cbn [rmem] in R; try discriminate.
  rewrite rmem_bind in R.
  destruct (rmem (fl_read_fields c _ post) r1) as [[y2|e0| | |] r2]; try discriminate.
  cbn [rmem] in R. inversion R; auto.
Qed.

(** ** Writing *)

(** Two structs in which the field [y] is written the same way. *)
Definition alike (c : cfg) (F1 F2 : fields) (V : list val) (y : ident) : Prop :=
  is_derived F1 y = is_derived F2 y /\
  (forall t n, fl_derive_value c F1 V y t n = fl_derive_value c F2 V y t n) /\
  (forall t n v, fl_verify_then_write c F1 V y t n v = fl_verify_then_write c F2 V y t n v).

Lemma alike_write c F1 F2 V : mk_env F1 V = mk_env F2 V ->
  (forall t id mem k v, alike c F1 F2 V id ->
     wmem (fl_write_ty c F1 V id mem k t v) = wmem (fl_write_ty c F2 V id mem k t v)) /\
  (forall gs ws, (forall y, In y (f_ids gs) -> alike c F1 F2 V y) ->
     wmem (fl_write_fields c F1 V gs ws) = wmem (fl_write_fields c F2 V gs ws)) /\
  (forall al id i v, alike c F1 F2 V id ->
     wmem (fl_write_alts c F1 V id al i v) = wmem (fl_write_alts c F2 V id al i v)).
Proof.
  intros E. apply schema_mutind; intros; cbn [fl_write_ty fl_write_fields fl_write_alts]; rewrite ?E; auto.
  - destruct H as (H1 & H2 & H3). unfold fl_write_fixed. rewrite H1, H2, !H3.
    destruct (is_derived F2 id).
    + destruct (fl_derive_value c F2 V id t n); auto. rewrite !wmem_bind, H3. auto.
    + destruct (mem && _); auto. destruct (frozen_value _ _); auto. rewrite H3. auto.
  - destruct (lookups (mk_env F2 V) ids) as [args|]; auto. destruct (p args), v; auto.
  - destruct v; auto. destruct g; auto;
      (destruct (deduce_type (mk_env F2 V) _) as [[j|]|]; auto; destruct (Nat.eqb j i); auto).
  - destruct ws; auto. rewrite !wmem_bind, !wmem_maperr, !wmem_bind.
    assert (A : alike c F1 F2 V id) by (apply H1; left; auto).
    rewrite (proj1 A), (H id true c0 v A), (H0 ws); auto. intros y Y. apply H1. right; auto.
  - destruct i; auto. rewrite !wmem_bind, (H id false c0 v); auto.
Qed.

Section Switched.
Variables (c : cfg) (n : ident) (t : ctype) (w : nat) (id : ident) (al : alts) (k : constr) (post : fields)
  (cases : list mval) (i0 : nat).
Let F1 := switched n t w id (write_guide c n cases) al k post.
Let F2 := switched n t w id (settled (length cases) i0) al k post.

Lemma switched_fold y V d : y <> n -> derive_fold c y F1 V d = derive_fold c y F2 V d.
Proof.
  intros N. unfold F1, F2, switched. destruct V as [|v0 [|v1 V]]; cbn [derive_fold]; auto.
  destruct (implied c y (FFixed t w) v0) as [[z|]|]; auto;
    unfold implied; cbn [len_target disc_target ident_is write_guide settled];
    (destruct (String.eqb n y) eqn:X; [apply String.eqb_eq in X; congruence|]); reflexivity.
Qed.

Lemma switched_verify y V m e : verify_cond e y m F1 V = verify_cond e y m F2 V.
Proof. reflexivity. Qed.

Lemma switched_alike y V : y <> n -> alike c F1 F2 V y.
Proof.
  intros N. assert (X : String.eqb n y = false) by (apply String.eqb_neq; congruence).
  split; [|split].
  - unfold F1, F2, switched, is_derived. cbn [is_length_derived is_disc_derived len_target disc_target ident_is write_guide settled].
    rewrite X. reflexivity.
  - intros u m. unfold fl_derive_value, derive_value. rewrite switched_fold by auto. reflexivity.
  - intros u m v. reflexivity.
Qed.

Lemma switched_rest V vs : NoDup (n :: id :: f_ids post) ->
  wmem (fl_write_fields c F1 V post vs) = wmem (fl_write_fields c F2 V post vs).
Proof.
  intros N. apply alike_write; [reflexivity|]. intros y Y. apply switched_alike. intros ->.
  inversion N. apply H1. right. auto.
Qed.
End Switched.

(** The bytes of the first field. *)
Lemma fixed_writes c n t w v : wf_ty [] (FFixed t w) = true -> ct_ok t v ->
  wmem (write_const c t w v) = (Ok tt, enc_fields (c_wire c) (FCons n (FFixed t w) CNone FNil) [v]).
Proof.
  intros Hw Hv. cbn [wf_ty] in Hw. apply andb_true_iff in Hw. destruct Hw as [W1 W2].
  rewrite write_const_ok; auto.
  - cbn [enc_fields enc_ty]. rewrite app_nil_r. auto.
  - destruct t; cbn in *; lia.
Qed.

Lemma carries_ok c t w z d : carries c t w z d -> ct_ok t d.
Proof. intros []; cbn; [apply conv_in|split; [auto|lia]]. Qed.

Lemma nd_fold c n t w id cases al k post v0 i x vs m z :
  is_derived post n = false -> length vs = f_len post ->
  nth_error cases i = Some m -> to_size_t (c_szw c) m = Some z ->
  derive_fold c n (switched n t w id (write_guide c n cases) al k post) (v0 :: VAlt i x :: vs) (mkD 0 false true) =
    Some (mkD z true true) /\ 0 <= z < pow256 (c_szw c).
Proof.
  intros Hd Hl Hn Hs.
  assert (R : 0 <= z < pow256 (c_szw c)).
  { destruct m; cbn in Hs; try discriminate.
    - inversion Hs. apply Z.mod_pos_bound, Z.pow_pos_nonneg; lia.
    - destruct (fdec w0 z0); try discriminate. destruct (_ && _) eqn:B; [|discriminate]. inversion Hs. lia. }
  split; auto.
  unfold switched. cbn [derive_fold]. unfold implied. cbn [len_target disc_target ident_is write_guide].
  rewrite String.eqb_refl. unfold value_at. rewrite (map_nth_error _ _ _ Hn), Hs. cbn [option_map].
  replace (to_size c z) with z by (symmetry; apply to_size_small; auto). cbn [record d_seen andb d_agreed].
  clear - Hd Hl. revert vs Hl. induction post as [|y u k' post IH]; intros [|v vs] Hl; cbn in Hl; try discriminate; auto.
  rewrite is_derived_cons in Hd. apply orb_false_iff in Hd. destruct Hd as [Hd Hd2]. apply orb_false_iff in Hd. destruct Hd as [Hd0 Hd1].
  cbn [derive_fold]. unfold implied. rewrite Hd0, Hd1. apply IH; auto.
Qed.

Lemma nd_derive c t w z : wf_ty [] (FFixed t w) = true -> (1 <= c_szw c <= 8)%nat -> 0 <= z < pow256 (c_szw c) ->
  forall F V n, derive_fold c n F V (mkD 0 false true) = Some (mkD z true true) ->
  (forall d, carries c t w z d -> (exists eb mb, t = TFloat w -> is_fmt w eb mb /\ 2 * z < pow256 (c_szw c)) ->
     fl_derive_value c F V n t w = FOk d) /\
  ((forall d, ~ carries c t w z d) -> (exists s, t = TScalar s) \/ (exists eb mb, t = TFloat w /\ is_fmt w eb mb /\ 2 * z < pow256 (c_szw c)) ->
     fl_derive_value c F V n t w = FErr ValidationFailure).
Proof.
  intros Hw Hk Hz F V n D.
  assert (SH : forall w, (Z.shiftr z (8 * Z.of_nat w) =? 0) = (z <? pow256 w)).
  { intros w'. rewrite Z.shiftr_div_pow2 by lia. unfold pow256. change 256 with (2 ^ 8). rewrite <- Z.pow_mul_r by lia.
    assert (0 < 2 ^ (8 * Z.of_nat w')) by (apply Z.pow_pos_nonneg; lia).
    destruct (Z.ltb_spec z (2 ^ (8 * Z.of_nat w'))).
    - rewrite Z.div_small by lia. reflexivity.
    - assert (1 <= z / 2 ^ (8 * Z.of_nat w')) by (apply Z.div_le_lower_bound; lia). lia. }
  assert (FI : forall s, fits_declared_width c s w z = true <-> ((w < c_szw c)%nat -> z < pow256 w) /\ conv s z mod pow256 (c_szw c) = z).
  { intros s. unfold fits_declared_width. rewrite andb_true_iff, SH, Z.eqb_eq. change (to_size c (conv s z)) with (conv s z mod pow256 (c_szw c)).
    destruct (Nat.ltb_spec w (c_szw c)); split; intros [X1 X2]; split; auto; try lia. }
  split.
  - intros d C G. destruct C as [s w z C1 C2|w z y C1 C2 C3 C4].
    + unfold fl_derive_value, derive_value. rewrite D. cbn [d_agreed negb d_val].
      rewrite (proj2 (FI s)) by auto. reflexivity.
    + destruct G as (eb & mb & G). destruct (G eq_refl) as [Hf H2]. unfold fl_derive_value. rewrite D. cbn [d_agreed negb d_val].
      destruct (fits_iff c w eb mb z Hf Hk (proj1 Hz) H2) as (f & F1 & F2). rewrite F1.
      replace f with true; [|symmetry; apply F2; split; auto; exists y; split; [lia|auto]].
      rewrite (fenc_only w eb mb _ y Hf C1 C2 C3) by lia. reflexivity.
  - intros C [(s & ->)|(eb & mb & -> & Hf & H2)].
    + unfold fl_derive_value, derive_value. rewrite D. cbn [d_agreed negb d_val].
      destruct (fits_declared_width c s w z) eqn:X; [|reflexivity]. exfalso. apply FI in X. destruct X.
      apply (C (VZ (conv s z))). constructor; auto.
    + unfold fl_derive_value. rewrite D. cbn [d_agreed negb d_val].
      destruct (fits_iff c w eb mb z Hf Hk (proj1 Hz) H2) as (f & F1 & F2). rewrite F1.
      destruct f; [|reflexivity]. exfalso. destruct (proj1 F2 eq_refl) as [X1 X2].
      destruct (exact_pos w eb mb z Hf (proj1 Hz) X1) as (y & Y1 & Y2 & Y3).
      apply (C (VF w y)). constructor; auto.
Qed.

Lemma switched_write c n t w id g al k post v0 V :
  fl_stream_cast c (switched n t w id g al k post) (v0 :: V) =
  wbind (wmaperr (fun r => (r, n))
    (fl_write_fixed c (switched n t w id g al k post) (v0 :: V) n true CNone t w v0))
    (fun _ => fl_write_fields c (switched n t w id g al k post) (v0 :: V) (FCons id (FUnion g al) k post) V).
Proof.
  unfold fl_stream_cast, switched. cbn [fl_write_fields fl_write_ty].
  destruct (is_derived _ n || is_frozen (FFixed t w) CNone); reflexivity.
Qed.

Lemma nd_write c n t w id cases al k post v0 i x vs m z :
  wf_ty [] (FFixed t w) = true -> (1 <= c_szw c <= 8)%nat -> NoDup (n :: id :: f_ids post) ->
  is_derived post n = false -> alts_target al n = false -> has_cond_obligation post n = false ->
  ct_ok t v0 -> length vs = f_len post ->
  nth_error cases i = Some m -> to_size_t (c_szw c) m = Some z -> narrow c t w z ->
  (forall d, carries c t w z d -> exists o out,
     wmem (nd_stream_cast c n t w id cases al k post (v0 :: VAlt i x :: vs)) =
       (o, enc_fields (c_wire c) (FCons n (FFixed t w) CNone FNil) [d] ++ out) /\
     wmem (fl_stream_cast c (switched n t w id (settled (length cases) i) al k post) (v0 :: VAlt i x :: vs)) =
       (o, enc_fields (c_wire c) (FCons n (FFixed t w) CNone FNil) [v0] ++ out)) /\
  ((forall d, ~ carries c t w z d) ->
     wmem (nd_stream_cast c n t w id cases al k post (v0 :: VAlt i x :: vs)) = (Err (ValidationFailure, n), [])).
Proof.
  intros Hw Hk HN Hd Ha Hc Hv Hl Hn Hs Hg.
  destruct (nd_fold c n t w id cases al k post v0 i x vs m z Hd Hl Hn Hs) as [D Hz].
  destruct (nd_derive c t w z Hw Hk Hz _ _ _ D) as [D1 D2].
  unfold nd_stream_cast. fold (switched n t w id (write_guide c n cases) al k post).
  set (F1 := switched n t w id (write_guide c n cases) al k post) in *.
  set (F2 := switched n t w id (settled (length cases) i) al k post).
  set (V := v0 :: VAlt i x :: vs) in *.
  assert (I1 : is_derived F1 n = true).
  { unfold F1, switched. rewrite !is_derived_cons. cbn [len_target disc_target ident_is write_guide]. rewrite String.eqb_refl. reflexivity. }
  assert (I2 : is_derived F2 n = false).
  { unfold F2, switched. rewrite !is_derived_cons. cbn [len_target disc_target ident_is settled]. rewrite Hd. reflexivity. }
  assert (O1 : has_cond_obligation F1 n = false).
  { unfold F1, switched. cbn [has_cond_obligation]. unfold has_cond_obligation_of. cbn. rewrite Ha, Hc. reflexivity. }
  assert (O2 : has_cond_obligation F2 n = false).
  { unfold F2, switched. cbn [has_cond_obligation]. unfold has_cond_obligation_of. cbn. rewrite Ha, Hc. reflexivity. }
  assert (VW : forall F u, has_cond_obligation F n = false -> ct_ok t u ->
     wmem (fl_verify_then_write c F V n t w u) = (Ok tt, enc_fields (c_wire c) (FCons n (FFixed t w) CNone FNil) [u])).
  { intros F u O U. unfold fl_verify_then_write, verify_then_write. rewrite O. destruct u; apply fixed_writes; auto. }
  assert (IL : (i < length cases)%nat) by (apply nth_error_Some; congruence).
  assert (N1 : id <> n). { inversion HN. intros ->. apply H1. left. auto. }
  assert (RE : wmem (fl_write_fields c F1 V (FCons id (FUnion (write_guide c n cases) al) k post) (VAlt i x :: vs)) =
               wmem (fl_write_fields c F2 V (FCons id (FUnion (settled (length cases) i) al) k post) (VAlt i x :: vs))).
  { cbn [fl_write_fields fl_write_ty]. rewrite !wmem_bind, !wmem_maperr, !wmem_bind.
    destruct (switched_alike c n t w id al k post cases i id V N1) as (A1 & A2 & A3).
    fold F1 F2 in A1. rewrite A1.
    change (is_frozen (FUnion (write_guide c n cases) al) k) with (is_frozen (FUnion (settled (length cases) i) al) k).
    rewrite settled_first by auto. rewrite Nat.eqb_refl. cbn [write_guide].
    rewrite (switched_rest c n t w id al k post cases i V vs HN : wmem (fl_write_fields c F1 V post vs) = _). fold F2.
    rewrite (proj2 (proj2 (alike_write c F1 F2 V eq_refl)) al id i x (switched_alike c n t w id al k post cases i id V N1)).
    reflexivity. }
  split.
  - intros d C. pose proof (carries_ok _ _ _ _ _ C) as Cd.
    exists (fst (wmem (fl_write_fields c F2 V (FCons id (FUnion (settled (length cases) i) al) k post) (VAlt i x :: vs)))),
           (snd (wmem (fl_write_fields c F2 V (FCons id (FUnion (settled (length cases) i) al) k post) (VAlt i x :: vs)))).
    unfold F1, F2, V. rewrite !switched_write. fold F1 F2 V. split.
    + rewrite wmem_bind, wmem_maperr, RE. unfold fl_write_fixed. rewrite I1, (D1 d C).
      2:{ destruct Hg as [(s & ->)|(eb & mb & -> & G)]; [exists 0, 0; discriminate|exists eb, mb; auto]. }
      change (wcheck CNone d) with (WRet (E := reason) tt). cbn [wbind]. rewrite VW by auto.
      clear RE. destruct (wmem (fl_write_fields c F2 V _ _)); reflexivity.
    + rewrite wmem_bind, wmem_maperr. unfold fl_write_fixed. rewrite I2.
      change (true && is_frozen (FFixed t w) CNone) with (is_frozen (FFixed t w) CNone).
      replace (is_frozen (FFixed t w) CNone) with false by (destruct t; reflexivity).
      rewrite VW by auto. clear RE. destruct (wmem (fl_write_fields c F2 V _ _)); reflexivity.
  - intros C. unfold F1, V. rewrite switched_write. fold F1 V. unfold fl_write_fixed. rewrite I1, (D2 C Hg). reflexivity.
Qed.

Lemma wcut_mem {E A} (p q : wprog E A) : wcut p q -> forall o r, wmem p = (o, r) -> o <> Stuck -> wmem q = (o, r).
Proof.
  intros H. induction H; cbn; intros o r R N; auto; [inversion R; subst; congruence|].
  destruct (wmem k) as [o1 r1] eqn:K. inversion R; subst. erewrite IHwcut; eauto.
Qed.

Lemma nd_valid c n t w id cases al k post i d x vs m z :
  (1 <= c_szw c <= 8)%nat ->
  let F2 := switched n t w id (settled (length cases) i) al k post in
  wf F2 = true -> typed F2 = true -> reversible c F2 = true -> valid c F2 (d :: VAlt i x :: vs) ->
  is_derived post n = false -> alts_target al n = false -> has_cond_obligation post n = false ->
  nth_error cases i = Some m -> to_size_t (c_szw c) m = Some z -> narrow c t w z -> carries c t w z d ->
  wmem (nd_stream_cast c n t w id cases al k post (d :: VAlt i x :: vs)) =
    (Ok tt, enc_fields (c_wire c) F2 (d :: VAlt i x :: vs)) /\
  forall rest, rmem (nd_struct_cast c n t w id cases al k post) (enc_fields (c_wire c) F2 (d :: VAlt i x :: vs) ++ rest) =
      (Ok (d :: VAlt i x :: vs), rest) <-> chooses t d cases i.
Proof.
  intros Hk F2 Hw Ht Hr Hv Hd Ha Hc Hn Hs Hg C.
  pose proof (rewrite_valid c F2 _ Hw Ht Hr Hv) as W0.
  assert (W : wmem (fl_stream_cast c F2 (d :: VAlt i x :: vs)) = (Ok tt, enc_fields (c_wire c) F2 (d :: VAlt i x :: vs))).
  { eapply wcut_mem; [apply write_wcut|exact W0|discriminate]. }
  assert (W1 : wf_ty [] (FFixed t w) = true /\ NoDup (n :: id :: f_ids post)).
  { destruct (wf_fields_ids _ _ Hw) as [X _]. split; [|exact X]. unfold wf, F2, switched in Hw. cbn [wf_fields] in Hw.
    apply andb_true_iff in Hw. destruct Hw as [Hw _]. apply andb_true_iff in Hw. tauto. }
  destruct W1 as [W1 W2].
  assert (L : length vs = f_len post).
  { unfold valid, F2, switched in Hv. cbn [valid_fields] in Hv. destruct Hv as (_ & _ & _ & _ & Hv). revert Hv. clear.
    set (E := mk_env _ _). clearbody E. revert vs. induction post; intros [|v vs]; cbn; try tauto. intros (_ & _ & H). f_equal. auto. }
  assert (Od : ct_ok t d /\ valid c (FCons n (FFixed t w) CNone FNil) [d]).
  { unfold valid, F2, switched in Hv. cbn [valid_fields] in Hv. destruct Hv as (X & Y & _). split; [exact (proj1 X)|].
    unfold valid. cbn [valid_fields]. split; [exact X|]. split; [exact Y|exact I]. }
  destruct Od as [Od V1].
  destruct (nd_write c n t w id cases al k post d i x vs m z W1 Hk W2 Hd Ha Hc Od L Hn Hs Hg) as [P _].
  destruct (P d C) as (o & out & Q1 & Q2). fold F2 in Q2. rewrite W in Q2.
  split; [congruence|]. intros rest.
  assert (R0 : rmem (struct_cast c (FCons n (FFixed t w) CNone FNil)) (enc_fields (c_wire c) F2 (d :: VAlt i x :: vs) ++ rest) =
    (Ok [d], out ++ rest)).
  { pose proof (f_equal snd Q2) as Q4. cbn [snd] in Q4. rewrite Q4, <- app_assoc. apply read_complete; auto.
    unfold wf. cbn [wf_fields]. rewrite W1. reflexivity. }
  assert (AN : exists a, as_num t d = Some a) by (destruct C; cbn; eauto).
  destruct AN as [a AN].
  split.
  - intros R. eapply nd_read_alt; eauto.
  - intros X. destruct (nd_read c n t w id cases al k post _ _ _ R0) as [Y _]. rewrite (Y i X). fold F2.
    eapply (cut_mem false); [apply read_cut|apply read_complete; auto|discriminate|discriminate].
Qed.

Lemma size_of_whole c m z : whole_num m z -> z < pow256 (c_szw c) -> to_size_t (c_szw c) m = Some z.
Proof.
  intros [s z' H|w y z' H D] L; cbn.
  - rewrite Z.mod_small by lia. auto.
  - rewrite D. unfold units. rewrite Z.quot_mul by (apply Z.pow_nonzero; lia).
    destruct (_ && _) eqn:B; auto. lia.
Qed.

Lemma whole_equal w eb mb y z m z' : is_fmt w eb mb -> fdec w y = FFin (units z) -> whole_num m z' -> exact_in w z' ->
  (equal_num (MFloat w y) m <-> z = z').
Proof.
  intros Hf D W (q & Q1 & Q2).
  assert (UI : fequal (FFin (units z)) (FFin (units z')) <-> z = z').
  { split; [intros [H _]; inversion H; apply units_inj; auto|intros ->; split; [auto|discriminate]]. }
  rewrite <- UI. destruct W as [s z' H|u v z' H D'].
  - pose proof (fround_id w eb mb q _ Hf Q1 Q2) as R. split.
    + intros E. inversion E; subst. rewrite D, R in *. auto.
    + intros E. constructor. rewrite D, R. auto.
  - split.
    + intros E. inversion E; subst. rewrite D, D' in *. auto.
    + intros E. constructor. rewrite D, D'. auto.
Qed.

Lemma whole_chooses w eb mb c cases zs i z d : is_fmt w eb mb -> Forall2 whole_num cases zs -> NoDup zs ->
  Forall (exact_in w) zs -> nth_error zs i = Some z -> carries c (TFloat w) w z d -> chooses (TFloat w) d cases i.
Proof.
  intros Hf F N X I C. inversion C; subst. exists (MFloat w y). split; auto.
  assert (NE : forall j m, nth_error cases j = Some m -> exists z', nth_error zs j = Some z' /\ whole_num m z').
  { clear - F. induction F; intros [|j] m H1; cbn in *; try discriminate; eauto. inversion H1; subst; eauto. }
  assert (EN : exists m, nth_error cases i = Some m).
  { clear - F I. revert i I. induction F; intros [|i] H1; cbn in *; try discriminate; eauto. }
  rewrite Forall_forall in X. destruct EN as [m M]. split.
  - exists m. split; auto. destruct (NE i m M) as (z' & Z1 & Z2).
    assert (z' = z) by congruence. subst. eapply whole_equal; eauto. apply X. eapply nth_error_In; eauto.
  - intros j m' J M' E. destruct (NE j m' M') as (z' & Z1 & Z2).
    apply (whole_equal w eb mb y z m' z' Hf) in E; auto; [|apply X; eapply nth_error_In; eauto]. subst.
    assert (j = i); [|lia]. eapply (proj1 (NoDup_nth_error zs) N); [apply nth_error_Some; congruence|congruence].
Qed.

(** ** Integers on both sides *)

Lemma switch_first s z cases : eval_switch s z cases = first_eq (MInt s z) (ints cases).
Proof.
  unfold eval_switch, ints. induction cases as [|[r y] cases IH]; cbn [map first_true first_eq num_eqb fst snd]; auto.
  rewrite IH. destruct (cxx_eq s z r y); auto; destruct (first_eq _ _); auto.
Qed.

Lemma nd_read_same c n s w id cases al k post S alloc st o st' ev :
  rrun S alloc (struct_cast c (switched n (TScalar s) w id (GField n s cases) al k post)) st = (o, st', ev) -> o <> Stuck ->
  rrun S alloc (nd_struct_cast c n (TScalar s) w id (ints cases) al k post) st = (o, st', ev).
Proof.
  intros R N. apply fl_cast_same in R; auto. eapply (cut_run false); [|exact R|exact N|discriminate].
  unfold nd_struct_cast, fl_struct_cast, switched.
  cbn [fl_read_fields]. apply cut_bind; [apply cut_refl|]. intros v.
  apply cut_bind; [|intros; apply cut_refl].
  set (e := update _ n v).
  apply cut_bind; [|intros; apply cut_refl]. apply cut_maperr, cut_bind; [|intros; apply cut_refl].
  cbn [fl_read_ty].
  assert (L : lookup e n = Some v).
  { unfold e. cbn [mk_env default_fields update]. rewrite String.eqb_refl. cbn [lookup]. rewrite String.eqb_refl. auto. }
  destruct v; cbn [deduce_type]; rewrite L; try apply cut_stuck.
  change (eval_ladder e ?b) with (deduce_type e (read_guide n (TScalar s) (ints cases))).
  rewrite (read_first e n (TScalar s) (ints cases) (VZ z) (MInt s z) L eq_refl), <- switch_first. apply cut_refl.
Qed.

Lemma nd_write_same c n s w id cases al k post vs o out : 
  wmem (stream_cast c (switched n (TScalar s) w id (GField n s cases) al k post) vs) = (o, out) -> o <> Stuck ->
  wmem (nd_stream_cast c n (TScalar s) w id (ints cases) al k post vs) = (o, out).
Proof.
  intros W N. apply (wcut_mem _ _ (proj1 (proj2 (write_wcut c)) _ _ _ _)) in W; auto. rewrite <- W. clear W N.
  fold (fl_stream_cast c (switched n (TScalar s) w id (GField n s cases) al k post) vs).
  unfold nd_stream_cast. fold (switched n (TScalar s) w id (write_guide c n (ints cases)) al k post).
  set (F1 := switched n (TScalar s) w id (write_guide c n (ints cases)) al k post).
  set (F2 := switched n (TScalar s) w id (GField n s cases) al k post).
  assert (VA : forall i, value_at c (map (fun m => (SInt (c_szw c) false, match to_size_t (c_szw c) m with Some z => z | None => 0 end)) (ints cases)) i
     = value_at c cases i).
  { unfold value_at, ints. intros i. revert i. induction cases as [|[r y] cases' IH]; intros [|i]; cbn [map nth_error fst snd]; auto.
    cbn [to_size_t]. unfold to_size. cbn [conv]. rewrite Z.mod_mod by (apply Z.pow_nonzero; lia). auto. }
  assert (A : forall y, alike c F1 F2 vs y).
  { intros y. split; [reflexivity|]. split.
    - intros u m. assert (DF : forall d, derive_fold c y F1 vs d = derive_fold c y F2 vs d).
      { intros d. unfold F1, F2, switched. destruct vs as [|v0 [|v1 V]]; cbn [derive_fold]; auto.
        assert (IE : implied c y (FUnion (write_guide c n (ints cases)) al) v1 = implied c y (FUnion (GField n s cases) al) v1).
        { unfold implied. cbn [len_target disc_target ident_is write_guide]. destruct (String.eqb n y); auto. destruct v1; auto. rewrite VA. auto. }
        rewrite IE. auto. }
      unfold fl_derive_value, derive_value. rewrite DF. auto.
    - reflexivity. }
  unfold fl_stream_cast. fold F1 F2.
  assert (E : mk_env F1 vs = mk_env F2 vs) by reflexivity.
  destruct (alike_write c F1 F2 vs E) as (X1 & X2 & X3).
  rewrite X2 by auto.
  cut (forall H, wmem (fl_write_fields c H vs F1 vs) = wmem (fl_write_fields c H vs F2 vs)); [intros G; apply G|].
  clear. intros H. unfold F1, F2, switched. destruct vs as [|v0 [|v1 V]]; cbn [fl_write_fields]; auto.
Qed.
