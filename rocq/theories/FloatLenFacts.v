(** * Facts about floating-point lengths *)
From Coq Require Import Lia ZifyBool ZifyNat String.
From Verif Require Import FloatLen Spec FloatSpec WSpec PropDefs FloatFacts MixedFacts FloatLenSpec BytesFacts ReadFacts WExact ExactFacts ReadFinal WriteFacts StaticSpec Safety Typing ProgFacts.
Local Open Scope list_scope.
Local Open Scope Z_scope.

(** ** Programs cut short *)

(** [p] is [q], except that some of its branches end early: stuck, or if [ub] undefined. *)
Inductive cut (ub : bool) {E A} : rprog E A -> rprog E A -> Prop :=
| cut_stuck q : cut ub RStuck q
| cut_undef q : ub = true -> cut ub RUB q
| cut_ret a : cut ub (RRet a) (RRet a)
| cut_err e : cut ub (RErr e) (RErr e)
| cut_ub : cut ub RUB RUB
| cut_read n e k k' : (forall bs, cut ub (k bs) (k' bs)) -> cut ub (RRead n e k) (RRead n e k')
| cut_alloc n k k' : cut ub k k' -> cut ub (RAlloc n k) (RAlloc n k').

Lemma cut_refl ub {E A} (p : rprog E A) : cut ub p p.
Proof. induction p; try (constructor; auto; fail). Qed.

Lemma cut_bind ub {E A B} (p q : rprog E A) (f g : A -> rprog E B) :
  cut ub p q -> (forall a, cut ub (f a) (g a)) -> cut ub (rbind p f) (rbind q g).
Proof. intros H F. induction H; cbn; try (constructor; auto; fail); auto. Qed.

Lemma cut_maperr ub {E E' A} (h : E -> E') (p q : rprog E A) :
  cut ub p q -> cut ub (rmaperr h p) (rmaperr h q).
Proof. intros H. induction H; cbn; try (constructor; auto; fail). Qed.

Lemma cut_rep ub {E A} n (p q : rprog E A) : cut ub p q -> cut ub (rrep n p) (rrep n q).
Proof.
  intros H. induction n; cbn; [constructor|]. apply cut_bind; [auto|]. intros a.
  apply cut_bind; [auto|]. intros; apply cut_refl.
Qed.

Lemma cut_run ub {E A} (p q : rprog E A) : cut ub p q -> forall S alloc s o s' ev,
  rrun S alloc p s = (o, s', ev) -> o <> Stuck -> (ub = true -> o <> UB) ->
  rrun S alloc q s = (o, s', ev).
Proof.
  intros H S alloc. induction H; cbn; intros s o s' ev R N U; auto.
  - inversion R; subst; congruence.
  - inversion R; subst. exfalso. apply U; auto.
  - destruct (i_read S s n) as [[bs|] s1]; auto.
    destruct (rrun S alloc (k bs) s1) as [[o1 s2] ev1] eqn:K. inversion R; subst.
    erewrite H0; eauto.
  - destruct (alloc n); auto. destruct (rrun S alloc k s) as [[o1 s2] ev1] eqn:K. inversion R; subst.
    erewrite IHcut; eauto.
Qed.

(** ** Reading *)

Lemma read_cut c :
  (forall t e, cut false (read_ty c e t) (fl_read_ty c e t)) /\
  (forall fs e, cut false (read_fields c e fs) (fl_read_fields c e fs)) /\
  (forall al e i, cut false (read_alts c e al i) (fl_read_alts c e al i)).
Proof.
  apply schema_mutind; intros; cbn [read_ty fl_read_ty read_fields fl_read_fields read_alts fl_read_alts];
    try apply cut_refl.
  - destruct l; cbn.
    + destruct (lookup e id) as [[]|]; try apply cut_refl; constructor.
    + destruct (lookups e ids); apply cut_refl.
  - apply cut_bind; [apply cut_maperr; auto|intros; apply cut_refl].
  - apply cut_bind; [|intros; apply cut_refl]. apply cut_rep.
    apply cut_bind; [apply cut_maperr; auto|intros; apply cut_refl].
  - assert (G : forall len, cut false
      (if len_allowed (ceiling c b) recsz len then
            RAlloc (len * recsz)
              (rbind (rrep (Z.to_nat len)
                        (rbind (rmaperr fst (read_fields c (mk_env fs (default_fields fs)) fs))
                               (fun vs => RRet (VRec vs))))
                     (fun l => RRet (VSeq l)))
          else RErr ExcessiveLength)
      (if len_allowed (ceiling c b) recsz len then
            RAlloc (len * recsz)
              (rbind (rrep (Z.to_nat len)
                        (rbind (rmaperr fst (fl_read_fields c (mk_env fs (default_fields fs)) fs))
                               (fun vs => RRet (VRec vs))))
                     (fun l => RRet (VSeq l)))
          else RErr ExcessiveLength)).
    { intros len. destruct (len_allowed _ _ _); [|apply cut_refl]. constructor.
      apply cut_bind; [|intros; apply cut_refl]. apply cut_rep.
      apply cut_bind; [apply cut_maperr; auto|intros; apply cut_refl]. }
    destruct l; cbn.
    + destruct (lookup e id) as [[]|]; try apply G; constructor.
    + destruct (lookups e ids); [apply G|constructor].
  - destruct (lookups e ids) as [vs|]; [|apply cut_refl]. destruct (p vs); [|apply cut_refl].
    apply cut_bind; [auto|intros; apply cut_refl].
  - destruct (deduce_type e g) as [[i|]|]; try apply cut_refl.
    apply cut_bind; [auto|intros; apply cut_refl].
  - apply cut_bind; [apply cut_maperr, cut_bind; [auto|intros; apply cut_refl]|]. intros v.
    apply cut_bind; [auto|intros; apply cut_refl].
  - destruct i; [|auto]. apply cut_bind; [auto|intros; apply cut_refl].
Qed.

Lemma fl_cast_same c fs S alloc s o s' ev :
  rrun S alloc (struct_cast c fs) s = (o, s', ev) -> o <> Stuck ->
  rrun S alloc (fl_struct_cast c fs) s = (o, s', ev).
Proof.
  intros R N. eapply cut_run; [apply read_cut|exact R|exact N|discriminate].
Qed.

Lemma computed_ids c fs : f_ids (computed_fields c fs) = f_ids fs.
Proof. induction fs; cbn; congruence. Qed.

Lemma computed_default c :
  (forall t, default_ty (computed_ty c t) = default_ty t) /\
  (forall fs, default_fields (computed_fields c fs) = default_fields fs) /\
  (forall al, default_alts (computed_alts c al) = default_alts al).
Proof. apply schema_mutind; intros; cbn; congruence. Qed.

Lemma computed_env c fs : forall vs, mk_env (computed_fields c fs) vs = mk_env fs vs.
Proof. induction fs; cbn; intros; auto. destruct vs; auto. now rewrite IHfs. Qed.

Lemma to_size_small c z : 0 <= z < pow256 (c_szw c) -> to_size c z = z.
Proof. intros. unfold to_size. apply Z.mod_small. auto. Qed.

Lemma float_to_size_range c x n : float_to_size c x = Some n -> 0 <= n < pow256 (c_szw c).
Proof.
  unfold float_to_size, ftoi. destruct x as [|b|m]; try discriminate.
  destruct (sc_in _ _) eqn:I; [|discriminate]. intros H; inversion H; subst. unfold sc_in in I. lia.
Qed.

Lemma computed_len c e l len : fl_deduce_len c e l = LVal len -> deduce_len c e (computed_len c l) = Some len.
Proof.
  destruct l; cbn.
  - destruct (lookup e id) as [[]|]; cbn; try discriminate.
    + intros H; inversion H; auto.
    + unfold as_number. fold (float_to_size c (fdec w z)).
      destruct (float_to_size c (fdec w z)) as [n|] eqn:F; [|discriminate].
      intros H; inversion H; subst. f_equal. apply to_size_small. eapply float_to_size_range; eauto.
  - destruct (lookups e ids); cbn; [|discriminate]. intros H; inversion H; auto.
Qed.

Lemma fl_read_cut c :
  (forall t e, cut true (fl_read_ty c e t) (read_ty c e (computed_ty c t))) /\
  (forall fs e, cut true (fl_read_fields c e fs) (read_fields c e (computed_fields c fs))) /\
  (forall al e i, cut true (fl_read_alts c e al i) (read_alts c e (computed_alts c al) i)).
Proof.
  apply schema_mutind; intros;
    cbn [read_ty fl_read_ty read_fields fl_read_fields read_alts fl_read_alts computed_ty computed_fields computed_alts];
    try apply cut_refl.
  - destruct (fl_deduce_len c e l) eqn:L; [rewrite (computed_len _ _ _ _ L); apply cut_refl|constructor; auto|constructor].
  - rewrite computed_env, (proj1 (proj2 (computed_default c))).
    apply cut_bind; [apply cut_maperr; auto|intros; apply cut_refl].
  - rewrite computed_env, (proj1 (proj2 (computed_default c))).
    apply cut_bind; [|intros; apply cut_refl]. apply cut_rep.
    apply cut_bind; [apply cut_maperr; auto|intros; apply cut_refl].
  - rewrite computed_env, (proj1 (proj2 (computed_default c))).
    destruct (fl_deduce_len c e l) eqn:L; [rewrite (computed_len _ _ _ _ L)|constructor; auto|constructor].
    destruct (len_allowed _ _ _); [|apply cut_refl]. constructor.
    apply cut_bind; [|intros; apply cut_refl]. apply cut_rep.
    apply cut_bind; [apply cut_maperr; auto|intros; apply cut_refl].
  - destruct (lookups e ids) as [vs|]; [|apply cut_refl]. destruct (p vs); [|apply cut_refl].
    apply cut_bind; [auto|intros; apply cut_refl].
  - destruct (deduce_type e g) as [[i|]|]; try apply cut_refl.
    apply cut_bind; [auto|intros; apply cut_refl].
  - apply cut_bind; [apply cut_maperr, cut_bind; [auto|intros; apply cut_refl]|]. intros v.
    apply cut_bind; [auto|intros; apply cut_refl].
  - destruct i; [|auto]. apply cut_bind; [auto|intros; apply cut_refl].
Qed.

Lemma fl_cast_computed c fs S alloc s o s' ev :
  rrun S alloc (fl_struct_cast c fs) s = (o, s', ev) -> o <> Stuck -> o <> UB ->
  rrun S alloc (struct_cast c (computed_fields c fs)) s = (o, s', ev).
Proof.
  intros R N U. unfold struct_cast. rewrite computed_env, (proj1 (proj2 (computed_default c))).
  eapply cut_run; [apply fl_read_cut|exact R|exact N|auto].
Qed.

(** ** What a floating-point number says of a length *)

Lemma float_to_size_iff c w z n :
  float_to_size c (fdec w z) = Some n <-> int_of (SInt (c_szw c) false) (VF w z) n.
Proof.
  unfold float_to_size, ftoi. split.
  - destruct (fdec w z) as [|b|m] eqn:D; try discriminate.
    destruct (sc_in _ _) eqn:I; [|discriminate]. intros H; inversion H; subst.
    apply io_float with (n := m); auto; [discriminate|]. now apply whole_part_iff.
  - intros I. inversion I as [|? ? m ? _ D W S|? ? N|? ? N]; subst; try discriminate.
    rewrite D. apply whole_part_iff in W. subst n. now rewrite S.
Qed.

Lemma float_to_size_none c w z :
  float_to_size c (fdec w z) = None <-> (forall n, ~ int_of (SInt (c_szw c) false) (VF w z) n).
Proof.
  split.
  - intros H n I. apply float_to_size_iff in I. congruence.
  - intros H. destruct (float_to_size c (fdec w z)) as [n|] eqn:E; auto.
    exfalso. apply (H n). now apply float_to_size_iff.
Qed.

Lemma first_field c n t w z bs rest e :
  rmem (struct_cast c (FCons n t CNone FNil)) bs = (Ok [VF w z], rest) ->
  (forall e1 e2, read_ty c e1 t = read_ty c e2 t) ->
  rmem (read_ty c e t) bs = (Ok (VF w z), rest).
Proof.
  intros H I. unfold struct_cast in H. cbn [read_fields] in H.
  rewrite (I _ e) in H. remember (read_ty c e t) as p. clear Heqp I. revert bs H.
  induction p as [a|r| | |m r g IH|m g IH]; intros bs R; cbn in *; try discriminate.
  - now inversion R.
  - destruct (_ <=? _); [|discriminate]. eauto.
  - eauto.
Qed.

Lemma rmem_bind {E A B} (p : rprog E A) (f : A -> rprog E B) : forall bs,
  rmem (rbind p f) bs =
  match rmem p bs with
  | (Ok a, bs') => rmem (f a) bs'
  | (Err e, bs') => (Err e, bs')
  | (UB, bs') => (UB, bs')
  | (Stuck, bs') => (Stuck, bs')
  | (Throw, bs') => (Throw, bs')
  end.
Proof.
  induction p; intros bs; cbn; auto. destruct (_ <=? _); auto.
Qed.

Lemma rmem_maperr {E E' A} (g : E -> E') (p : rprog E A) : forall bs,
  rmem (rmaperr g p) bs =
  match rmem p bs with
  | (Ok a, bs') => (Ok a, bs')
  | (Err e, bs') => (Err (g e), bs')
  | (UB, bs') => (UB, bs')
  | (Stuck, bs') => (Stuck, bs')
  | (Throw, bs') => (Throw, bs')
  end.
Proof.
  induction p; intros bs; cbn; auto. destruct (_ <=? _); auto.
Qed.

(** A number, then a container of that many elements. *)
Lemma pair_read c n w id t k post bs z rest : container t -> n <> id ->
  rmem (struct_cast c (FCons n (FFixed (TFloat w) w) CNone FNil)) bs = (Ok [VF w z], rest) ->
  ((forall m, ~ int_of (SInt (c_szw c) false) (VF w z) m) ->
   rmem (fl_struct_cast c (FCons n (FFixed (TFloat w) w) CNone (FCons id (t (LenField n)) k post))) bs = (UB, rest)) /\
  (forall m, int_of (SInt (c_szw c) false) (VF w z) m ->
   rmem (fl_struct_cast c (FCons n (FFixed (TFloat w) w) CNone (FCons id (t (LenField n)) k post))) bs =
   rmem (fl_struct_cast c (FCons n (FFixed (TFloat w) w) CNone (FCons id (t (LenComp (fun _ => m) [])) k post))) bs).
Proof.
  intros T N H.
  assert (F : forall e, rmem (read_ty c e (FFixed (TFloat w) w)) bs = (Ok (VF w z), rest)).
  { intros e. eapply first_field; eauto. }
  clear H.
  assert (L : forall l k', rmem (fl_struct_cast c (FCons n (FFixed (TFloat w) w) CNone (FCons id (t l) k' post))) bs =
    rmem (rbind (fl_read_fields c (update (mk_env (FCons n (FFixed (TFloat w) w) CNone (FCons id (t l) k' post))
            (default_fields (FCons n (FFixed (TFloat w) w) CNone (FCons id (t l) k' post)))) n (VF w z))
            (FCons id (t l) k' post)) (fun vs => RRet (VF w z :: vs))) rest).
  { intros l k'. unfold fl_struct_cast.
    match goal with |- rmem (fl_read_fields c ?e (FCons n ?u CNone ?fs)) bs = _ =>
      change (fl_read_fields c e (FCons n u CNone fs)) with
        (rbind (rmaperr (fun r => (r, n)) (rbind (read_ty c e u) (rcheck CNone)))
            (fun v => rbind (fl_read_fields c (update e n v) fs) (fun vs => RRet (v :: vs)))) end.
    rewrite rmem_bind, rmem_maperr, rmem_bind, F. reflexivity. }
  split.
  - intros U. rewrite L. apply float_to_size_none in U. cbn [mk_env default_fields update].
    rewrite String.eqb_refl. cbn [fl_read_fields].
    destruct T; cbn [fl_read_ty fl_deduce_len lookup]; rewrite String.eqb_refl, U; reflexivity.
  - intros m I. rewrite !L. apply float_to_size_iff in I.
    assert (D : default_ty (t (LenField n)) = default_ty (t (LenComp (fun _ => m) []))) by (destruct T; reflexivity).
    cbn [mk_env default_fields update]. rewrite String.eqb_refl, D. cbn [fl_read_fields].
    assert (Z : to_size c m = m) by (apply to_size_small; eapply float_to_size_range; eauto).
    destruct T; cbn [fl_read_ty fl_deduce_len lookup lookups]; rewrite String.eqb_refl, I, Z; reflexivity.
Qed.

(** ** Writing *)

Inductive wcut {E A} : wprog E A -> wprog E A -> Prop :=
| wcut_stuck q : wcut WStuck q
| wcut_ret a : wcut (WRet a) (WRet a)
| wcut_err e : wcut (WErr e) (WErr e)
| wcut_ub : wcut WUB WUB
| wcut_write bs e k k' : wcut k k' -> wcut (WWrite bs e k) (WWrite bs e k').

Lemma wcut_refl {E A} (p : wprog E A) : wcut p p.
Proof. induction p; constructor; auto. Qed.

Lemma wcut_bind {E A B} (p q : wprog E A) (f g : A -> wprog E B) :
  wcut p q -> (forall a, wcut (f a) (g a)) -> wcut (wbind p f) (wbind q g).
Proof. intros H F. induction H; cbn; try constructor; auto. Qed.

Lemma wcut_maperr {E E' A} (h : E -> E') (p q : wprog E A) :
  wcut p q -> wcut (wmaperr h p) (wmaperr h q).
Proof. intros H. induction H; cbn; constructor; auto. Qed.

Lemma wcut_for {E A} (l : list A) (f g : A -> wprog E unit) :
  (forall a, wcut (f a) (g a)) -> wcut (wfor l f) (wfor l g).
Proof.
  intros H. induction l; cbn; [constructor|]. apply wcut_bind; auto.
Qed.

Lemma wcut_run {E A} (p q : wprog E A) : wcut p q -> forall S s o s' ch,
  wrun S p s = (o, s', ch) -> o <> Stuck -> wrun S q s = (o, s', ch).
Proof.
  intros H S. induction H; cbn; intros s o s' ch R N; auto.
  - inversion R; subst; congruence.
  - destruct (o_write S s bs) as [[] s1]; auto.
    destruct (wrun S k s1) as [[o1 s2] ch1] eqn:K. inversion R; subst. erewrite IHwcut; eauto.
Qed.

Lemma verify_wcut c fs vs id t n v :
  wcut (verify_then_write c fs vs id t n v) (fl_verify_then_write c fs vs id t n v).
Proof.
  unfold fl_verify_then_write. destruct v; try apply wcut_refl.
  unfold verify_then_write. destruct (has_cond_obligation fs id); [constructor|apply wcut_refl].
Qed.

Lemma write_fixed_wcut c fs vs id mem k t n v :
  wcut (write_fixed c fs vs id mem k t n v) (fl_write_fixed c fs vs id mem k t n v).
Proof.
  unfold write_fixed, fl_write_fixed. destruct (is_derived fs id).
  - unfold fl_derive_value. destruct t; try (cbn [derive_value]; constructor; fail).
    destruct (derive_value c fs vs id (TScalar s) n); try constructor.
    apply wcut_bind; [apply wcut_refl|intros; apply verify_wcut].
  - destruct (mem && is_frozen (FFixed t n) k).
    + destruct (frozen_value (FFixed t n) k); [apply verify_wcut|constructor].
    + apply verify_wcut.
Qed.

Lemma write_wcut c :
  (forall t fs vs id mem k v, wcut (write_ty c fs vs id mem k t v) (fl_write_ty c fs vs id mem k t v)) /\
  (forall gs fs vs ws, wcut (write_fields c fs vs gs ws) (fl_write_fields c fs vs gs ws)) /\
  (forall al fs vs id i v, wcut (write_alts c fs vs id al i v) (fl_write_alts c fs vs id al i v)).
Proof.
  apply schema_mutind; intros;
    cbn [write_ty fl_write_ty write_fields fl_write_fields write_alts fl_write_alts]; try apply wcut_refl.
  - apply write_fixed_wcut.
  - destruct v; try apply wcut_refl. apply wcut_maperr; auto.
  - destruct v; try apply wcut_refl. destruct (Nat.eqb _ _); [|apply wcut_refl].
    apply wcut_for. intros []; try apply wcut_refl. apply wcut_maperr; auto.
  - destruct v; try apply wcut_refl. apply wcut_bind; [apply wcut_refl|]. intros _.
    apply wcut_for. intros []; try apply wcut_refl. apply wcut_maperr; auto.
  - destruct (lookups (mk_env fs vs) ids) as [args|]; [|apply wcut_refl].
    destruct (p args), v; try apply wcut_refl. auto.
  - destruct v; try apply wcut_refl. destruct g; auto;
      (destruct (deduce_type (mk_env fs vs) _) as [[j|]|]; try apply wcut_refl;
       destruct (Nat.eqb j i); [auto|apply wcut_refl]).
  - destruct ws; [apply wcut_refl|]. apply wcut_bind; [|auto].
    apply wcut_maperr, wcut_bind; [apply wcut_refl|auto].
  - destruct i; [|auto]. apply wcut_bind; [apply wcut_refl|auto].
Qed.

Lemma fl_stream_same c fs vs S s o s' ch :
  wrun S (stream_cast c fs vs) s = (o, s', ch) -> o <> Stuck ->
  wrun S (fl_stream_cast c fs vs) s = (o, s', ch).
Proof. intros R N. eapply wcut_run; [apply write_wcut|exact R|exact N]. Qed.

(** ** Whole numbers of a format *)

Lemma big_is_whole w eb mb z m : is_fmt w eb mb -> 0 <= z < pow256 w -> fdec w z = FFin m ->
  units (2 ^ (mb + 1)) <= m -> exists v, m = units v.
Proof.
  intros Hf Hz Hd Hm. destruct (fmt_pos _ _ _ Hf) as (P1 & P2 & P3).
  destruct (pattern w eb mb z Hf Hz) as (s & e & f & Hs & He & Hff & ->).
  rewrite (fdec_parts w eb mb) in Hd by (auto; lia).
  destruct (Z.eqb_spec e (2 ^ eb - 1)); [destruct (f =? 0); discriminate|].
  assert (Em : m = (1 - 2 * s) * (mag mb e f * 2 ^ unit_of mb)) by (inversion Hd; auto). clear Hd.
  pose proof pow_1074 as D. unfold units in *.
  assert (Pm : 0 < 2 ^ (mb + 1)) by (apply Z.pow_pos_nonneg; lia).
  assert (Pu : 0 < 2 ^ unit_of mb) by (apply Z.pow_pos_nonneg; lia).
  assert (Mn : 0 <= mag mb e f) by (apply mag_nonneg; lia).
  assert (S0 : s = 0).
  { destruct Hs as [|S1]; auto. exfalso. subst s.
    assert (0 <= mag mb e f * 2 ^ unit_of mb) by (apply Z.mul_nonneg_nonneg; lia).
    assert (0 < 2 ^ (mb + 1) * 2 ^ 1074) by (apply Z.mul_pos_pos; lia). lia. }
  subst s. replace (1 - 2 * 0) with 1 in Em by reflexivity. rewrite Z.mul_1_l in Em.
  assert (K : exists q, 0 <= q < 2 ^ (mb + 1) /\ mag mb e f = q * 2 ^ (Z.max e 1 - 1)).
  { unfold mag. eexists. split; [|reflexivity]. rewrite Z.pow_add_r by lia.
    destruct (e =? 0); lia. }
  destruct K as (q & Hq & Eq). rewrite Eq in Em. rewrite <- Z.mul_assoc, <- Z.pow_add_r in Em by lia.
  set (x := Z.max e 1 - 1 + unit_of mb) in *.
  assert (X : 1074 <= x).
  { destruct (Z_le_gt_dec 1074 x); auto. exfalso.
    assert (2 ^ x <= 2 ^ 1074) by (apply Z.pow_le_mono_r; lia).
    assert (0 <= 2 ^ x) by (apply Z.pow_nonneg; lia).
    assert (q * 2 ^ x <= q * 2 ^ 1074) by (apply Z.mul_le_mono_nonneg_l; lia).
    assert (q * 2 ^ 1074 < 2 ^ (mb + 1) * 2 ^ 1074) by (apply Z.mul_lt_mono_pos_r; lia).
    lia. }
  exists (q * 2 ^ (x - 1074)). rewrite Em, <- Z.mul_assoc, <- Z.pow_add_r by lia. do 2 f_equal. lia.
Qed.

Lemma half_exact w eb mb k : is_fmt w eb mb -> (1 <= k <= 8)%nat ->
  let z := fenc w (units (2 ^ (8 * Z.of_nat k - 1))) in
  0 <= z < pow256 w /\ fdec w z = FFin (units (2 ^ (8 * Z.of_nat k - 1))).
Proof.
  intros Hf Hk.
  assert (G : forall w, (w = 4 \/ w = 8)%nat -> forall k, In k [1; 2; 3; 4; 5; 6; 7; 8]%nat ->
    (let z := fenc w (units (2 ^ (8 * Z.of_nat k - 1))) in
     (0 <=? z) && (z <? pow256 w) &&
     match fdec w z with FFin n => n =? units (2 ^ (8 * Z.of_nat k - 1)) | _ => false end) = true).
  { intros w' [-> | ->] k' I; cbn [In] in I;
      repeat (destruct I as [<-|I]; [vm_compute; reflexivity|]); destruct I. }
  assert (Hw : (w = 4 \/ w = 8)%nat) by (destruct Hf as [(-> & _)|(-> & _)]; auto).
  assert (I : In k [1; 2; 3; 4; 5; 6; 7; 8]%nat) by (cbn [In]; lia).
  specialize (G w Hw k I). cbv zeta in *. apply andb_true_iff in G as [G1 G2].
  apply andb_true_iff in G1 as [G0 G1]. apply Z.leb_le in G0. apply Z.ltb_lt in G1. split; [auto|].
  destruct (fdec w _) as [| |n]; try discriminate. apply Z.eqb_eq in G2. now subst.
Qed.

Lemma fenc_range w eb mb n : is_fmt w eb mb -> 0 <= n -> 0 <= fenc w n /\ 2 * fenc w n < pow256 w.
Proof.
  intros Hf Hn. destruct (fmt_pos _ _ _ Hf) as (P1 & P2 & P3). destruct (fmt_unit _ _ _ Hf) as [Hd Heb].
  unfold fenc. rewrite Hd. cbv zeta. replace (n <? 0) with false by lia. rewrite Z.add_0_l.
  rewrite (fmt_width _ _ _ Hf).
  set (l := Z.max (Z.log2 (Z.abs n) - mb) (unit_of mb)).
  assert (Pm : 0 < 2 ^ mb) by (apply Z.pow_pos_nonneg; lia).
  assert (Pe : 1 < 2 ^ eb) by (apply Z.pow_gt_1; lia).
  assert (Pl : 0 < 2 ^ l) by (apply Z.pow_pos_nonneg; lia).
  assert (Q : 0 <= Z.abs n / 2 ^ l) by (apply Z.div_pos; lia).
  rewrite Z.pow_add_r by lia. change (2 ^ 1) with 2. rewrite Z.pow_add_r by lia.
  assert (T : (2 ^ eb - 1) * 2 ^ mb < 2 ^ mb * 2 ^ eb) by lia.
  assert (U : 0 <= (2 ^ eb - 1) * 2 ^ mb) by (apply Z.mul_nonneg_nonneg; lia).
  set (q' := if _ : bool then _ else _).
  assert (Q' : 0 <= q') by (unfold q'; destruct (_ || _); lia).
  assert (V : 0 <= (l - unit_of mb) * 2 ^ mb) by (apply Z.mul_nonneg_nonneg; lia).
  lia.
Qed.

Lemma units_le a b : a <= b -> units a <= units b.
Proof. unfold units. pose proof pow_1074. intros. apply Z.mul_le_mono_nonneg_r; lia. Qed.

Lemma whole_units v z : whole_part (units v) z <-> z = v.
Proof.
  rewrite whole_part_iff. unfold units. rewrite Z.quot_mul by (pose proof pow_1074; lia). split; congruence.
Qed.

Lemma back_iff c w eb mb v : is_fmt w eb mb -> (1 <= c_szw c <= 8)%nat -> 0 <= v -> 2 * v < pow256 (c_szw c) ->
  exists b, match float_to_size c (fround w (FFin (units v))) with
            | Some v' => Some (v' =? v) | None => None end = Some b /\ (b = true <-> exact_in w v).
Proof.
  intros Hf Hk Hv Hlt.
  pose proof (half_exact w eb mb (c_szw c) Hf Hk) as HE. cbv zeta in HE.
  set (h := 2 ^ (8 * Z.of_nat (c_szw c) - 1)) in *.
  assert (Hh : pow256 (c_szw c) = 2 * h).
  { unfold h, pow256. change 256 with (2 ^ 8). rewrite <- Z.pow_mul_r by lia.
    replace (8 * Z.of_nat (c_szw c)) with (1 + (8 * Z.of_nat (c_szw c) - 1)) at 1 by lia.
    rewrite Z.pow_add_r by lia. reflexivity. }
  destruct HE as [HE1 HE2].
  assert (U0 : 0 <= units v) by (unfold units; apply Z.mul_nonneg_nonneg; [lia|pose proof pow_1074; lia]).
  destruct (fenc_range w eb mb (units v) Hf U0) as [R1 R2].
  assert (R3 : 0 <= fenc w (units v) < pow256 w) by lia.
  destruct (fround_side w eb mb (units v) _ _ Hf HE1 HE2) as [S1 _].
  assert (S1' : ~ fless (FFin (units h)) (fround w (FFin (units v)))) by (apply S1, units_le; lia).
  destruct (fenc_dec w eb mb (units v) Hf) as [(L & I)|(_ & (m & E & M0 & N) & _)].
  { exfalso. apply S1'. unfold fround. rewrite I. replace (units v <? 0) with false by lia. constructor. }
  assert (Em : fround w (FFin (units v)) = FFin m) by exact E.
  rewrite Em in *.
  assert (Mh : m <= units h).
  { destruct (Z_le_gt_dec m (units h)); auto. exfalso. apply S1'. constructor. lia. }
  assert (Mz : 0 <= m).
  { destruct (Z.eq_dec (units v) 0) as [Z0|Z0].
    - destruct (N 0 0) as [N1 _]; [split; [lia|apply pow256_pos]| |lia].
      destruct Hf as [(-> & _)|(-> & _)]; reflexivity.
    - apply Z.mul_nonneg_cancel_l with (n := units v) (m := m); lia. }
  exists (Z.quot m (2 ^ 1074) =? v).
  assert (F : float_to_size c (FFin m) = Some (Z.quot m (2 ^ 1074))).
  { unfold float_to_size, ftoi. cbv zeta. pose proof pow_1074 as D.
    assert (Q1 : 0 <= Z.quot m (2 ^ 1074)) by (apply Z.quot_pos; lia).
    assert (Q2 : Z.quot m (2 ^ 1074) <= h).
    { rewrite Z.quot_div_nonneg by lia. apply Z.div_le_upper_bound; [lia|]. unfold units in Mh. lia. }
    assert (h < pow256 (c_szw c)).
    { rewrite Hh. assert (0 < h) by (unfold h; apply Z.pow_pos_nonneg; lia). lia. }
    unfold sc_in. replace ((0 <=? Z.quot m (2 ^ 1074)) && (Z.quot m (2 ^ 1074) <? pow256 (c_szw c))) with true by lia.
    reflexivity. }
  rewrite F. split; [reflexivity|]. rewrite Z.eqb_eq. split.
  - intros Q. exists (fenc w (units v)). split; [auto|]. rewrite E. f_equal.
    destruct (Z_le_gt_dec v (2 ^ (mb + 1))) as [Sm|Bg].
    { rewrite <- (f_equal (fun x => match x with FFin n => n | _ => 0 end) Em).
      rewrite (fround_int w eb mb v Hf) by lia. reflexivity. }
    assert (B2 : units (2 ^ (mb + 1)) <= m).
    { destruct (Z_le_gt_dec (units (2 ^ (mb + 1))) m) as [|Gt]; auto. exfalso.
      assert (P2 : 0 < mb) by (destruct (fmt_pos _ _ _ Hf); lia).
      pose proof (fround_int w eb mb (2 ^ (mb + 1)) Hf ltac:(rewrite Z.abs_eq by (apply Z.pow_nonneg; lia); lia)) as FI.
      assert (UP : 0 <= units (2 ^ (mb + 1))).
      { unfold units. apply Z.mul_nonneg_nonneg; apply Z.pow_nonneg; lia. }
      destruct (fenc_range w eb mb (units (2 ^ (mb + 1))) Hf UP) as [X1 X2].
      destruct (fround_side w eb mb (units v) (fenc w (units (2 ^ (mb + 1)))) (units (2 ^ (mb + 1))) Hf) as [_ S2];
        [lia|exact FI|]. apply S2; [apply units_le; lia|]. rewrite Em. constructor. lia. }
    destruct (big_is_whole w eb mb _ _ Hf R3 E B2) as [v' ->]. f_equal.
    unfold units in Q. rewrite Z.quot_mul in Q by (pose proof pow_1074; lia). auto.
  - intros (z & Hz & Hd). pose proof (fround_id w eb mb z _ Hf Hz Hd) as X. rewrite Em in X.
    inversion X as [Y]. unfold units. apply Z.quot_mul. pose proof pow_1074; lia.
Qed.

(** The check of the writer. *)
Lemma fits_iff c w eb mb v : is_fmt w eb mb -> (1 <= c_szw c <= 8)%nat -> 0 <= v -> 2 * v < pow256 (c_szw c) ->
  exists b, fl_fits c w w v = Some b /\
    (b = true <-> exact_in w v /\ ((w < c_szw c)%nat -> v < pow256 w)).
Proof.
  intros Hf Hk Hv Hlt. unfold fl_fits.
  assert (SH : (Z.shiftr v (8 * Z.of_nat w) =? 0) = (v <? pow256 w)).
  { rewrite Z.shiftr_div_pow2 by lia. unfold pow256. change 256 with (2 ^ 8). rewrite <- Z.pow_mul_r by lia.
    assert (0 < 2 ^ (8 * Z.of_nat w)) by (apply Z.pow_pos_nonneg; lia).
    destruct (Z.ltb_spec v (2 ^ (8 * Z.of_nat w))).
    - rewrite Z.div_small by lia. reflexivity.
    - apply Z.eqb_neq. intros E. apply Z.div_small_iff in E; lia. }
  rewrite SH. destruct (Nat.ltb_spec w (c_szw c)) as [W|W]; cbn [andb].
  1: destruct (Z.ltb_spec v (pow256 w)) as [V|V]; cbn [negb].
  2:{ exists false. split; [auto|]. split; [discriminate|]. intros [_ H]. specialize (H W). lia. }
  all: destruct (back_iff c w eb mb v Hf Hk Hv Hlt) as (b & B1 & B2); exists b; split; [exact B1|]; rewrite B2;
    split; [intros H; split; [exact H|intros; lia]|intros [H _]; exact H].
Qed.

(** ** A length and its container *)

Definition spelled (w : nat) (n id : ident) (elt : ctype) (b : option Z) (m : Z) : fields :=
  FCons n (FFixed (TFloat w) w) CNone (FCons id (FVar elt (LenComp (fun _ => m) []) b) CNone FNil).

Lemma spelled_typed w n id elt b m : typed (spelled w n id elt b m) = true.
Proof. reflexivity. Qed.

Lemma fmt_nat w eb mb : is_fmt w eb mb -> (w = 4 \/ w = 8)%nat.
Proof. intros [(-> & _)|(-> & _)]; auto. Qed.

Lemma spelled_wf w eb mb n id elt b m : is_fmt w eb mb -> n <> id -> ct_wf elt = true ->
  wf (spelled w n id elt b m) = true.
Proof.
  intros Hf N Hw. unfold wf, spelled. cbn [wf_fields wf_ty ct_wf len_wf all_in forallb csize].
  destruct (fmt_nat _ _ _ Hf) as [-> | ->]; cbn; rewrite Hw; cbn;
    rewrite ?(proj2 (String.eqb_neq _ _) N), ?(proj2 (String.eqb_neq _ _) (not_eq_sym N)); reflexivity.
Qed.

Lemma derive_counted c w n id elt b v0 xs : n <> id ->
  is_derived (counted w n id elt b) n = true /\ is_derived (counted w n id elt b) id = false /\
  has_cond_obligation (counted w n id elt b) n = false /\
  derive_fold c n (counted w n id elt b) [v0; VSeq xs] (mkD 0 false true) =
    Some (mkD (Z.of_nat (length xs)) true true).
Proof.
  intros N. unfold counted, is_derived. cbn. rewrite !String.eqb_refl, (proj2 (String.eqb_neq _ _) N). cbn.
  unfold implied. cbn. rewrite String.eqb_refl. cbn. auto.
Qed.

Lemma counted_write c w n id elt b v0 xs : n <> id -> Z.of_nat (length xs) < pow256 (c_szw c) ->
  wmem (fl_stream_cast c (counted w n id elt b) [v0; VSeq xs]) =
  match fl_fits c w w (Z.of_nat (length xs)) with
  | Some true => wmem (stream_cast c (spelled w n id elt b (Z.of_nat (length xs)))
                         [VF w (fenc w (units (Z.of_nat (length xs)))); VSeq xs])
  | Some false => (Err (ValidationFailure, n), [])
  | None => (UB, [])
  end.
Proof.
  intros N Hlt. destruct (derive_counted c w n id elt b v0 xs N) as (D1 & D2 & D3 & D4).
  unfold fl_stream_cast. set (fs := counted w n id elt b) in *.
  unfold fs at 2. unfold counted. cbn [fl_write_fields fl_write_ty]. unfold fl_write_fixed, fl_derive_value.
  rewrite D1, D2, D4. cbn [orb d_agreed negb d_val is_frozen wcheck wbind].
  destruct (fl_fits c w w (Z.of_nat (length xs))) as [[]|]; [|reflexivity|reflexivity].
  unfold fl_verify_then_write. rewrite D3. unfold stream_cast, spelled. cbn [write_fields write_ty].
  unfold write_fixed, verify_then_write, verify_len, is_derived. cbn.
  unfold to_size. rewrite Z.mod_small by lia. rewrite Z.eqb_refl. reflexivity.
Qed.

Lemma spelled_has w eb mb n id elt b m z xs : is_fmt w eb mb -> 0 <= z < pow256 w -> Forall (ct_ok elt) xs ->
  has_fields (spelled w n id elt b m) [VF w z; VSeq xs].
Proof.
  intros Hf Hz Hx. cbn. eauto 10.
Qed.

Lemma spelled_emitted c w n id elt b m v xs :
  emitted c (spelled w n id elt b m) [v; VSeq xs] = [v; VSeq xs].
Proof. unfold emitted. reflexivity. Qed.

Lemma spelled_writable c w n id elt b z xs : Z.of_nat (length xs) < pow256 (c_szw c) ->
  writable c (spelled w n id elt b (Z.of_nat (length xs))) [VF w z; VSeq xs].
Proof.
  intros Hl. unfold writable. cbn. unfold fixed_ok. cbn.
  split; [split; [exact I|intros m []]|]. split; [|exact I]. split; [exact I|]. exists xs. split; [auto|].
  exists []. split; [auto|]. unfold pow256 in Hl. rewrite Z.mod_small; lia.
Qed.

Lemma units_inj a b : units a = units b -> a = b.
Proof. unfold units. intros H. apply Z.mul_cancel_r in H; auto. pose proof pow_1074. lia. Qed.

(** The only number with the sign bit clear that is [m] is what [m] is converted to. *)
Lemma fenc_only w eb mb m z : is_fmt w eb mb -> 0 <= z -> 2 * z < pow256 w -> fdec w z = FFin (units m) ->
  0 <= m -> fenc w (units m) = z.
Proof.
  intros Hf Hz1 Hz2 Hd Hm.
  assert (Um : 0 <= units m) by (unfold units; pose proof pow_1074; lia).
  destruct (fenc_range w eb mb (units m) Hf Um) as [R1 R2].
  pose proof (fround_id w eb mb z _ Hf ltac:(lia) Hd) as X. unfold fround in X.
  destruct (fmt_unit _ _ _ Hf) as [Ft _].
  pose proof (proj1 (float_equal_bits w _ (fenc w (units m)) z Ft ltac:(lia) ltac:(lia))) as B.
  rewrite X, Hd in B. destruct B as [[E _]|[[_ E]|[_ E]]]; [split; [auto|discriminate]|auto|lia|lia].
Qed.

Lemma pair_write_ok c w eb mb n id elt b v0 xs z : is_fmt w eb mb -> (1 <= c_szw c <= 8)%nat -> n <> id ->
  ct_wf elt = true -> Forall (ct_ok elt) xs -> 2 * Z.of_nat (length xs) < pow256 (c_szw c) ->
  0 <= z -> 2 * z < pow256 w -> fdec w z = FFin (units (Z.of_nat (length xs))) ->
  ((w < c_szw c)%nat -> Z.of_nat (length xs) < pow256 w) ->
  wmem (fl_stream_cast c (counted w n id elt b) [v0; VSeq xs]) =
    (Ok tt, enc_fields (c_wire c) (counted w n id elt b) [VF w z; VSeq xs]).
Proof.
  intros Hf Hk N Hw Hx Hlt Hz1 Hz2 Hd Hn.
  rewrite counted_write by (auto; lia).
  destruct (fits_iff c w eb mb (Z.of_nat (length xs)) Hf Hk ltac:(lia) Hlt) as (f & F1 & F2).
  rewrite F1. replace f with true.
  2:{ symmetry. apply F2. split; [|exact Hn]. exists z. split; [lia|exact Hd]. }
  rewrite (fenc_only w eb mb _ z Hf Hz1 Hz2 Hd) by lia.
  apply write_ok_iff.
  - eapply spelled_wf; eauto.
  - apply spelled_typed.
  - eapply spelled_has; eauto. lia.
  - split; [apply spelled_writable; lia|]. rewrite spelled_emitted. reflexivity.
Qed.

Lemma pair_write_err c w eb mb n id elt b v0 xs : is_fmt w eb mb -> (1 <= c_szw c <= 8)%nat -> n <> id ->
  2 * Z.of_nat (length xs) < pow256 (c_szw c) ->
  ~ (exact_in w (Z.of_nat (length xs)) /\ ((w < c_szw c)%nat -> Z.of_nat (length xs) < pow256 w)) ->
  wmem (fl_stream_cast c (counted w n id elt b) [v0; VSeq xs]) = (Err (ValidationFailure, n), []).
Proof.
  intros Hf Hk N Hlt Hno. rewrite counted_write by (auto; lia).
  destruct (fits_iff c w eb mb (Z.of_nat (length xs)) Hf Hk ltac:(lia) Hlt) as (f & F1 & F2).
  rewrite F1. destruct f; [|reflexivity]. exfalso. apply Hno, F2, eq_refl.
Qed.

(** A number of the format that is [m], with the sign bit clear. *)
Lemma exact_pos w eb mb m : is_fmt w eb mb -> 0 <= m -> exact_in w m ->
  exists z, 0 <= z /\ 2 * z < pow256 w /\ fdec w z = FFin (units m).
Proof.
  intros Hf Hm (z & Hz & Hd).
  assert (Um : 0 <= units m) by (unfold units; pose proof pow_1074; lia).
  destruct (fenc_range w eb mb (units m) Hf Um) as [R1 R2].
  exists (fenc w (units m)). split; [auto|]. split; [auto|].
  exact (fround_id w eb mb z _ Hf Hz Hd).
Qed.

Lemma exact_small w eb mb m : is_fmt w eb mb -> 0 <= m <= 2 ^ (mb + 1) -> exact_in w m.
Proof.
  intros Hf Hm. pose proof (fround_int w eb mb m Hf ltac:(lia)) as X.
  assert (Um : 0 <= units m) by (unfold units; pose proof pow_1074; lia).
  destruct (fenc_range w eb mb (units m) Hf Um) as [R1 R2].
  exists (fenc w (units m)). split; [lia|]. exact X.
Qed.

Lemma cut_mem ub {E A} (p q : rprog E A) : cut ub p q -> forall bs o r,
  rmem p bs = (o, r) -> o <> Stuck -> (ub = true -> o <> UB) -> rmem q bs = (o, r).
Proof.
  intros H. induction H; cbn; intros bs' o r R N U; auto.
  - inversion R; subst; congruence.
  - inversion R; subst. exfalso. apply U; auto.
  - destruct (n <=? Z.of_nat (length bs')); auto.
Qed.

Lemma int_of_exact c w z m : 0 <= m < pow256 (c_szw c) -> fdec w z = FFin (units m) ->
  int_of (SInt (c_szw c) false) (VF w z) m.
Proof.
  intros Hm Hd. apply float_to_size_iff. unfold float_to_size. rewrite Hd. unfold ftoi. cbv zeta.
  unfold units. rewrite Z.quot_mul by (pose proof pow_1074; lia). unfold sc_in.
  replace ((0 <=? m) && (m <? pow256 (c_szw c))) with true by lia. reflexivity.
Qed.

(** A whole number followed by that many elements reads back. *)
Lemma pair_back c w eb mb n id elt b z xs rest : is_fmt w eb mb -> n <> id ->
  ct_wf elt = true -> Forall (ct_ok elt) xs -> Z.of_nat (length xs) < pow256 (c_szw c) ->
  within c b (Z.of_nat (csize elt)) (length xs) ->
  0 <= z < pow256 w -> fdec w z = FFin (units (Z.of_nat (length xs))) ->
  rmem (fl_struct_cast c (counted w n id elt b))
    (enc_fields (c_wire c) (counted w n id elt b) [VF w z; VSeq xs] ++ rest) = (Ok [VF w z; VSeq xs], rest).
Proof.
  intros Hf N Hw Hx Hlt Hin Hz Hd.
  assert (RP : representable (c_wire c) (TFloat w) w (VF w z)).
  { unfold representable. rewrite skipn_all2; [constructor|]. rewrite enc_ct_length; [cbn; lia|]. split; [auto|lia]. }
  assert (F : rmem (struct_cast c (FCons n (FFixed (TFloat w) w) CNone FNil))
     (enc_fields (c_wire c) (counted w n id elt b) [VF w z; VSeq xs] ++ rest) =
     (Ok [VF w z], enc_fields (c_wire c) (FCons id (FVar elt (LenField n) b) CNone FNil) [VSeq xs] ++ rest)).
  { pose proof (read_complete c (FCons n (FFixed (TFloat w) w) CNone FNil) [VF w z]
      (enc_fields (c_wire c) (FCons id (FVar elt (LenField n) b) CNone FNil) [VSeq xs] ++ rest)) as RC.
    cbn [enc_fields] in RC. rewrite app_nil_r in RC. unfold counted. cbn [enc_fields]. rewrite <- app_assoc.
    apply RC.
    - unfold wf. destruct (fmt_nat _ _ _ Hf) as [-> | ->]; reflexivity.
    - split; [split; [split; [reflexivity|exact Hz]|exact RP]|]. split; exact I. }
  destruct (pair_read c n w id (fun l => FVar elt l b) CNone FNil _ z _ (ct_var elt b) N F) as [_ P].
  unfold counted in *. rewrite (P _ (int_of_exact c w z _ (conj (Nat2Z.is_nonneg _) Hlt) Hd)).
  eapply cut_mem; [apply read_cut| |discriminate|discriminate].
  change (read_fields c (mk_env ?fs (default_fields ?fs)) ?fs) with (struct_cast c fs).
  pose proof (read_complete c (spelled w n id elt b (Z.of_nat (length xs))) [VF w z; VSeq xs] rest) as RC.
  apply RC; [eapply spelled_wf; eauto|].
  split; [split; [split; [reflexivity|exact Hz]|exact RP]|]. split; [exact I|]. split; [|split; exact I].
  exists xs. split; [auto|]. split; [auto|]. split; [|exact Hin]. exists []. split; [auto|].
  unfold pow256 in Hlt. rewrite Z.mod_small; lia.
Qed.

Lemma fl_read_sound c fs bs vs rest : wf (computed_fields c fs) = true -> Forall byte_ok bs ->
  rmem (fl_struct_cast c fs) bs = (Ok vs, rest) ->
  valid c (computed_fields c fs) vs /\ bs = enc_fields (c_wire c) (computed_fields c fs) vs ++ rest.
Proof.
  intros Hw Hb H. apply read_sound; auto. unfold struct_cast.
  rewrite computed_env, (proj1 (proj2 (computed_default c))).
  eapply cut_mem; [apply fl_read_cut|exact H|discriminate|discriminate].
Qed.

Lemma pair_write c w eb mb n id elt b v0 xs : is_fmt w eb mb -> (1 <= c_szw c <= 8)%nat -> n <> id ->
  ct_wf elt = true -> Forall (ct_ok elt) xs -> 2 * Z.of_nat (length xs) < pow256 (c_szw c) ->
  (forall z, 0 <= z -> 2 * z < pow256 w -> fdec w z = FFin (units (Z.of_nat (length xs))) ->
   ((w < c_szw c)%nat -> Z.of_nat (length xs) < pow256 w) ->
   wmem (fl_stream_cast c (counted w n id elt b) [v0; VSeq xs]) =
     (Ok tt, enc_fields (c_wire c) (counted w n id elt b) [VF w z; VSeq xs])) /\
  (~ (exact_in w (Z.of_nat (length xs)) /\ ((w < c_szw c)%nat -> Z.of_nat (length xs) < pow256 w)) ->
   wmem (fl_stream_cast c (counted w n id elt b) [v0; VSeq xs]) = (Err (ValidationFailure, n), [])).
Proof.
  intros. split; [intros; eapply pair_write_ok; eauto|intros; eapply pair_write_err; eauto].
Qed.

Lemma pair_round c w eb mb n id elt b v0 xs out rest : is_fmt w eb mb -> (1 <= c_szw c <= 8)%nat -> n <> id ->
  ct_wf elt = true -> Forall (ct_ok elt) xs -> 2 * Z.of_nat (length xs) < pow256 (c_szw c) ->
  within c b (Z.of_nat (csize elt)) (length xs) ->
  wmem (fl_stream_cast c (counted w n id elt b) [v0; VSeq xs]) = (Ok tt, out) ->
  exists z, fdec w z = FFin (units (Z.of_nat (length xs))) /\
    rmem (fl_struct_cast c (counted w n id elt b)) (out ++ rest) = (Ok [VF w z; VSeq xs], rest).
Proof.
  intros Hf Hk N Hw Hx Hlt Hin Hwr.
  destruct (fits_iff c w eb mb (Z.of_nat (length xs)) Hf Hk ltac:(lia) Hlt) as (f & F1 & F2).
  destruct f.
  - destruct F2 as [F2 _]. destruct (F2 eq_refl) as [X X2].
    destruct (exact_pos w eb mb _ Hf (Nat2Z.is_nonneg _) X) as (z & Z1 & Z2 & Z3).
    rewrite (pair_write_ok c w eb mb n id elt b v0 xs z) in Hwr by auto.
    inversion Hwr; subst. exists z. split; [auto|]. eapply pair_back; eauto; lia.
  - exfalso. rewrite counted_write in Hwr by (auto; lia). rewrite F1 in Hwr. discriminate.
Qed.

Lemma small_write c w eb mb n id elt b v0 xs : is_fmt w eb mb -> (1 <= c_szw c <= 8)%nat -> n <> id ->
  ct_wf elt = true -> Forall (ct_ok elt) xs -> 2 * Z.of_nat (length xs) < pow256 (c_szw c) ->
  Z.of_nat (length xs) <= 2 ^ (mb + 1) ->
  exists out, wmem (fl_stream_cast c (counted w n id elt b) [v0; VSeq xs]) = (Ok tt, out).
Proof.
  intros Hf Hk N Hw Hx Hlt Hs.
  destruct (exact_pos w eb mb _ Hf (Nat2Z.is_nonneg (length xs)) (exact_small w eb mb _ Hf (conj (Nat2Z.is_nonneg _) Hs)))
    as (z & Z1 & Z2 & Z3).
  eexists. apply (pair_write_ok c w eb mb n id elt b v0 xs z); auto.
  intros _. apply Z.le_lt_trans with (1 := Hs). destruct Hf as [(-> & -> & ->)|(-> & -> & ->)]; reflexivity.
Qed.

Lemma not_exact : ~ exact_in 4 16777217.
Proof.
  intros H.
  destruct (fits_iff (mkCfg Little Little false 8 0) 4 8 23 16777217) as (f & F1 & F2);
    [left; auto|cbn; lia|lia|vm_compute; auto|].
  assert (T : f = true) by (apply F2; split; [exact H|intros _; vm_compute; auto]).
  subst. vm_compute in F1. discriminate.
Qed.

Lemma too_many : exists xs, Z.of_nat (length xs) = 16777217 /\
  Forall (ct_ok (TScalar (SInt 1 false))) xs /\ forall v0,
  wmem (fl_stream_cast (mkCfg Little Little false 8 16777216)
    (counted 4 "n"%string "data"%string (TScalar (SInt 1 false)) None) [v0; VSeq xs]) = (Err (ValidationFailure, "n"%string), []).
Proof.
  exists (repeat (VZ 0) (Z.to_nat 16777217)).
  assert (L : Z.of_nat (length (repeat (VZ 0) (Z.to_nat 16777217))) = 16777217).
  { rewrite repeat_length. apply Z2Nat.id. lia. }
  split; [exact L|]. split.
  { apply Forall_forall. intros x Hx. apply repeat_spec in Hx. subst. reflexivity. }
  intros v0. eapply (pair_write_err _ 4 8 23).
  - left. auto.
  - cbn. lia.
  - discriminate.
  - rewrite L. reflexivity.
  - rewrite L. intros [H _]. exact (not_exact H).
Qed.

(** ** Any schema that begins with the number *)

Lemma fl_implied c G id t v : typed_ty G (computed_ty c t) = true -> has_ty t v ->
  implied c id t v = Some (hd_error (claim c id t v)) /\ (length (claim c id t v) <= 1)%nat.
Proof.
  intros Ht Hv. destruct (sized_by_target id t v Hv) as [H1 H2].
  unfold implied. destruct (ident_is (len_target t) id) eqn:El.
  - destruct (H1 eq_refl) as (n & Hn & ->).
    assert (claim c id t v = [Z.of_nat n]) as ->; [|auto].
    destruct t; try discriminate; unfold claim; rewrite Hn; auto.
  - destruct t as [|elt l b| | |fs recsz l b| |[i s cases| |] al];
      try (unfold claim; rewrite (H2 eq_refl); simpl; auto; fail).
    cbn [disc_target ident_is]. destruct v; try (simpl in Hv; tauto). cbn [claim].
    destruct (String.eqb i id); simpl; auto.
    cbn [computed_ty typed_ty guide_typed] in Ht. apply andb_true_iff in Ht. destruct Ht as [Ht _].
    destruct (tlookup G i) as [[[s'| | |]| | | | | |]|]; try discriminate.
    apply andb_true_iff in Ht. destruct Ht as [_ Ht]. apply Nat.eqb_eq in Ht.
    simpl in Hv. apply has_alt_nth in Hv. destruct Hv as (t' & k' & Hn & _).
    assert (i0 < a_len (computed_alts c al))%nat.
    { clear - Hn. revert i0 Hn. induction al; intros [|j] H; simpl in *; try discriminate; try lia.
      apply IHal in H. lia. }
    unfold value_at. destruct (nth_error cases i0) as [[s1 z]|] eqn:En.
    + simpl. auto.
    + apply nth_error_None in En. lia.
Qed.

Lemma fl_fold_claims c id fs : forall G vs d, typed_fields G (computed_fields c fs) = true -> has_fields fs vs ->
  derive_fold c id fs vs d = Some (fold_left record (claims c id fs vs) d).
Proof.
  induction fs; intros G [|v vs] d Ht Hv; simpl in *; try tauto.
  apply andb_true_iff in Ht. destruct Ht as [Ht T3]. apply andb_true_iff in Ht. destruct Ht as [T1 T2].
  destruct Hv as [V1 V2]. destruct (fl_implied c G id t v T1 V1) as [-> Hl].
  destruct (claim c id t v) as [|z [|]]; simpl in *; try lia; eapply IHfs; eauto.
Qed.

Lemma fl_claim_target c G id t v : typed_ty G (computed_ty c t) = true -> has_ty t v ->
  (ident_is (len_target t) id || ident_is (disc_target t) id = true <-> claim c id t v <> []).
Proof.
  intros Ht Hv. destruct (fl_implied c G id t v Ht Hv) as [Hi _]. revert Hi. unfold implied.
  destruct (ident_is (len_target t) id) eqn:El.
  - destruct (sized_by_target id t v Hv) as [H1 _]. destruct (H1 El) as (n & _ & ->). simpl.
    intros H. split; auto. intros _ Hc. rewrite Hc in H. discriminate.
  - simpl. destruct (ident_is (disc_target t) id) eqn:Ed.
    + destruct t as [| | | | | |[] al]; try discriminate. destruct v; try (simpl in Hv; tauto).
      destruct (value_at c cases i); simpl; intros H; split; auto; try discriminate.
      intros _ Hc. rewrite Hc in H. discriminate.
    + intros H. split; [discriminate|]. destruct (claim c id t v); [congruence|discriminate].
Qed.

Lemma fl_derived_claims c id fs : forall G vs, typed_fields G (computed_fields c fs) = true -> has_fields fs vs ->
  (is_derived fs id = true <-> claims c id fs vs <> []).
Proof.
  induction fs; intros G [|v vs] Ht Hv; try (simpl in *; tauto).
  - simpl. split; [discriminate|tauto].
  - rewrite is_derived_cons. cbn [computed_fields typed_fields claims has_fields] in *.
    apply andb_true_iff in Ht. destruct Ht as [Ht T3]. apply andb_true_iff in Ht. destruct Ht as [T1 T2].
    destruct Hv as [V1 V2]. rewrite orb_true_iff, (fl_claim_target c G id t v T1 V1), (IHfs _ vs T3 V2).
    split.
    + intros [H|H] Hc; apply app_eq_nil in Hc; tauto.
    + intros H. destruct (claim c id t v); [right; exact H|left; discriminate].
Qed.

Lemma fl_cond_agrees c seen e id w t v : covers seen e -> wf_ty seen (computed_ty c t) = true -> has_ty t v ->
  cond_agrees e id w t v = Some (forallb (fun z => z =? w) (cond_claim e id t v)) /\
  (has_cond_obligation_of t id = false -> cond_claim e id t v = []).
Proof.
  intros Hc Hw Hv. unfold cond_agrees, has_cond_obligation_of.
  destruct t as [| | | | |b p ids|g al]; try (simpl; auto; fail).
  - cbn [cond_target]. cbn [computed_ty wf_ty] in Hw. apply andb_true_iff in Hw. destruct Hw as [Hw _].
    destruct (covers_lookups _ _ _ Hc Hw) as [args Ha].
    destruct v; try (simpl in Hv; tauto).
    + simpl. destruct (ident_is (len_target b) id); auto.
    + simpl in Hv. destruct (sized_by_target id b v Hv) as [H1 H2].
      cbn [cond_claim]. rewrite Ha. destruct (ident_is (len_target b) id).
      * destruct (H1 eq_refl) as (n & -> & ->). destruct (p args); simpl; split; auto; try discriminate.
        rewrite andb_true_r. auto.
      * rewrite (H2 eq_refl). destruct (p args); simpl; auto.
  - destruct v; try (simpl in Hv; tauto). cbn [cond_claim]. simpl in Hv.
    apply has_alt_nth in Hv. destruct Hv as (t & k & Hn & Hv). rewrite Hn.
    destruct (sized_by_target id t v Hv) as [H1 H2]. cbn [cond_target ident_is].
    destruct (ident_is (len_target t) id) eqn:El.
    + destruct (H1 eq_refl) as (n & -> & ->). simpl. rewrite andb_true_r. split; auto.
      rewrite (alts_target_nth _ _ _ _ _ Hn El). discriminate.
    + rewrite (H2 eq_refl). simpl. auto.
Qed.

Lemma fl_verify_cond c e id w fs : forall seen vs, covers (f_ids fs ++ seen) e ->
  wf_fields seen (computed_fields c fs) = true -> has_fields fs vs ->
  verify_cond e id w fs vs = Some (forallb (fun z => z =? w) (cond_claims e id fs vs)) /\
  (has_cond_obligation fs id = false -> cond_claims e id fs vs = []).
Proof.
  induction fs; intros seen [|v vs] Hc Hw Hv; try (simpl in *; tauto).
  - cbn [verify_cond cond_claims has_cond_obligation computed_fields wf_fields has_fields f_ids] in *.
    apply andb_true_iff in Hw. destruct Hw as [Hw W3]. apply andb_true_iff in Hw. destruct Hw as [W1 W2].
    destruct Hv as [V1 V2].
    assert (Hc1 : covers seen e).
    { intros x Hx. apply Hc. simpl. right. apply in_or_app; auto. }
    destruct (fl_cond_agrees c seen e id w t v Hc1 W2 V1) as [-> H1].
    destruct (IHfs (id0 :: seen) vs) as [-> H2]; auto.
    { intros x Hx. apply Hc. simpl. apply in_app_or in Hx. simpl in Hx.
      destruct Hx as [Hx|[Hx|Hx]]; auto; right; apply in_or_app; auto. }
    split.
    + rewrite forallb_app. auto.
    + rewrite orb_false_iff. intros [G1 G2]. rewrite (H1 G1), (H2 G2). auto.
Qed.

Lemma env_covers fs : forall vs, has_fields fs vs -> covers (f_ids fs) (mk_env fs vs).
Proof.
  induction fs as [|i t k fs IH]; intros [|v vs] Hv; simpl in *; try tauto; intros x Hx; [destruct Hx|].
  simpl. destruct (String.eqb i x) eqn:E.
  - eauto.
  - destruct Hx as [->|Hx]; [rewrite String.eqb_refl in E; discriminate|]. apply (IH vs); tauto.
Qed.

Lemma first_write c w n gs v0 vs :
  fl_stream_cast c (FCons n (FFixed (TFloat w) w) CNone gs) (v0 :: vs) =
  wbind (wmaperr (fun r => (r, n))
    (fl_write_fixed c (FCons n (FFixed (TFloat w) w) CNone gs) (v0 :: vs) n true CNone (TFloat w) w v0))
    (fun _ => fl_write_fields c (FCons n (FFixed (TFloat w) w) CNone gs) (v0 :: vs) gs vs).
Proof.
  unfold fl_stream_cast. cbn [fl_write_fields fl_write_ty is_frozen].
  destruct (is_derived (FCons n (FFixed (TFloat w) w) CNone gs) n || _); reflexivity.
Qed.

Lemma derived_stop c w eb mb n gs v0 vs m l : is_fmt w eb mb -> (1 <= c_szw c <= 8)%nat ->
  typed (computed_fields c (FCons n (FFixed (TFloat w) w) CNone gs)) = true ->
  has_fields (FCons n (FFixed (TFloat w) w) CNone gs) (v0 :: vs) ->
  claims c n gs vs = m :: l ->
  (~ Forall (eq m) l ->
   wmem (fl_stream_cast c (FCons n (FFixed (TFloat w) w) CNone gs) (v0 :: vs)) = (Err (FoundContradictingLength, n), [])) /\
  (Forall (eq m) l -> 0 <= m -> 2 * m < pow256 (c_szw c) ->
   ~ (exact_in w m /\ ((w < c_szw c)%nat -> m < pow256 w)) ->
   wmem (fl_stream_cast c (FCons n (FFixed (TFloat w) w) CNone gs) (v0 :: vs)) = (Err (ValidationFailure, n), [])).
Proof.
  intros Hf Hk Ht Hv Hc.
  assert (D : is_derived (FCons n (FFixed (TFloat w) w) CNone gs) n = true).
  { apply (fl_derived_claims c n _ [] (v0 :: vs) Ht Hv). cbn [claims claim sized_by to_list map app]. rewrite Hc. discriminate. }
  pose proof (fl_fold_claims c n _ [] (v0 :: vs) (mkD 0 false true) Ht Hv) as F.
  cbn [claims claim sized_by to_list map app] in F. rewrite Hc in F. cbn [fold_left] in F.
  unfold record at 2 in F. cbn [d_seen andb d_agreed] in F.
  destruct (record_agreed l m) as [R1 R2].
  rewrite first_write. unfold fl_write_fixed. rewrite D. unfold fl_derive_value. rewrite F.
  split.
  - intros NA. destruct (d_agreed (fold_left record l (mkD m true true))); [exfalso; apply NA, R1, eq_refl|]. reflexivity.
  - intros A M0 M1 NX. rewrite (proj2 R1 A), (R2 A). cbn [negb].
    destruct (fits_iff c w eb mb m Hf Hk M0 M1) as (f & F1 & F2). rewrite F1.
    destruct f; [exfalso; apply NX, F2, eq_refl|reflexivity].
Qed.

Lemma cond_in gs n id t p ids k : container t -> In (id, FMaybe (t (LenField n)) p ids, k) (f_list gs) ->
  has_cond_obligation gs n = true.
Proof.
  intros T. induction gs as [|i u k' gs IH]; cbn [f_list has_cond_obligation In]; [tauto|].
  intros [E|E]; [|rewrite IH by auto; apply orb_true_r]. inversion E; subst.
  unfold has_cond_obligation_of. destruct T; cbn; rewrite String.eqb_refl; reflexivity.
Qed.

Lemma alts_in al n t k : container t -> (exists i, a_nth i al = Some (t (LenField n), k)) -> alts_target al n = true.
Proof.
  intros T [i H]. eapply alts_target_nth; [exact H|]. destruct T; cbn; apply String.eqb_refl.
Qed.

Lemma verified_write c w eb mb n gs z vs : is_fmt w eb mb ->
  wf (computed_fields c (FCons n (FFixed (TFloat w) w) CNone gs)) = true ->
  typed (computed_fields c (FCons n (FFixed (TFloat w) w) CNone gs)) = true ->
  has_fields (FCons n (FFixed (TFloat w) w) CNone gs) (VF w z :: vs) ->
  claims c n gs vs = [] ->
  ((exists id t p ids k, container t /\ In (id, FMaybe (t (LenField n)) p ids, k) (f_list gs)) ->
   (forall m, ~ int_of (SInt (c_szw c) false) (VF w z) m) ->
   wmem (fl_stream_cast c (FCons n (FFixed (TFloat w) w) CNone gs) (VF w z :: vs)) = (UB, [])) /\
  (forall m, int_of (SInt (c_szw c) false) (VF w z) m ->
   ~ Forall (eq m) (cond_claims (mk_env (FCons n (FFixed (TFloat w) w) CNone gs) (VF w z :: vs)) n gs vs) ->
   wmem (fl_stream_cast c (FCons n (FFixed (TFloat w) w) CNone gs) (VF w z :: vs)) = (Err (FoundContradictingLength, n), [])) /\
  (forall m, int_of (SInt (c_szw c) false) (VF w z) m ->
   Forall (eq m) (cond_claims (mk_env (FCons n (FFixed (TFloat w) w) CNone gs) (VF w z :: vs)) n gs vs) ->
   exists more, snd (wmem (fl_stream_cast c (FCons n (FFixed (TFloat w) w) CNone gs) (VF w z :: vs))) =
     enc_ct (c_wire c) (TFloat w) (VF w z) ++ more).
Proof.
  intros Hf Hw Ht Hv Hc. set (fs := FCons n (FFixed (TFloat w) w) CNone gs) in *. set (V := VF w z :: vs) in *.
  assert (D : is_derived fs n = false).
  { destruct (is_derived fs n) eqn:E; auto. apply (fl_derived_claims c n fs [] V Ht Hv) in E. contradiction. }
  rewrite (first_write c w n gs (VF w z) vs : fl_stream_cast c fs V = _). fold fs V.
  unfold fl_write_fixed. rewrite D. change (true && is_frozen (FFixed (TFloat w) w) CNone) with false. cbn iota. unfold fl_verify_then_write.
  assert (CV : forall m, verify_cond (mk_env fs V) n m fs V = Some (forallb (fun z => z =? m) (cond_claims (mk_env fs V) n gs vs)) /\
    (has_cond_obligation fs n = false -> cond_claims (mk_env fs V) n gs vs = [])).
  { intros m. destruct (fl_verify_cond c (mk_env fs V) n m fs [] V) as [X1 X2].
    - rewrite app_nil_r. apply env_covers; auto.
    - exact Hw.
    - exact Hv.
    - split; [exact X1|exact X2]. }
  assert (FA : forall m l, forallb (fun z => z =? m) l = true <-> Forall (eq m) l).
  { intros m l. rewrite forallb_forall, Forall_forall. split; intros H x Hx; specialize (H x Hx); lia. }
  assert (WC : wmem (write_const c (TFloat w) w (VF w z)) = (Ok tt, enc_ct (c_wire c) (TFloat w) (VF w z))).
  { destruct Hv as [Hv _]. rewrite write_const_ok; [|destruct (fmt_nat _ _ _ Hf) as [-> | ->]; reflexivity|cbn; lia|exact Hv].
    rewrite firstn_all2; [reflexivity|]. rewrite enc_ct_length by exact Hv. cbn. lia. }
  split; [|split].
  - intros (id & t & p & ids & k & T & I) N. apply float_to_size_none in N.
    assert (H : has_cond_obligation fs n = true) by (unfold fs; cbn [has_cond_obligation]; rewrite (cond_in gs n id t p ids k T I); apply orb_true_r).
    rewrite H, N. reflexivity.
  - intros m I NA. apply float_to_size_iff in I. destruct (CV m) as [C1 C2].
    destruct (has_cond_obligation fs n) eqn:H.
    + rewrite I, C1. destruct (forallb _ _) eqn:FB; [exfalso; apply NA, FA, FB|reflexivity].
    + exfalso. apply NA. rewrite C2 by auto. constructor.
  - intros m I A. apply float_to_size_iff in I. destruct (CV m) as [C1 _].
    exists (snd (wmem (fl_write_fields c fs V gs vs))).
    destruct (has_cond_obligation fs n); [rewrite I, C1, (proj2 (FA _ _) A)|];
      rewrite wmem_bind, wmem_maperr; rewrite WC; destruct (wmem (fl_write_fields c fs V gs vs)); reflexivity.
Qed.
