(** Floating-point numbers: what bit patterns mean, and how they compare. *)
From Coq Require Import ZifyBool ZifyNat.
From Verif Require Import Read Spec WSpec FloatSpec PropDefs Typing BytesFacts ReadFacts ReadFinal
  WriteFacts WriteErr Rewrite.
Local Open Scope Z_scope.

(** ** The parts of a pattern *)

Section Format.
Variables eb mb : Z.
Hypothesis Heb : 0 < eb.
Hypothesis Hmb : 0 < mb.

Lemma parts_of s e m : 0 <= m < 2 ^ mb -> 0 <= e < 2 ^ eb ->
  let z := s * 2 ^ (mb + eb) + e * 2 ^ mb + m in
  z mod 2 ^ mb = m /\ (z / 2 ^ mb) mod 2 ^ eb = e /\ z / 2 ^ (mb + eb) = s.
Proof.
  intros Hm He z. assert (P : 2 ^ (mb + eb) = 2 ^ mb * 2 ^ eb) by (apply Z.pow_add_r; lia).
  assert (Pm : 0 < 2 ^ mb) by (apply Z.pow_pos_nonneg; lia).
  assert (Pe : 0 < 2 ^ eb) by (apply Z.pow_pos_nonneg; lia).
  assert (E : z / 2 ^ mb = s * 2 ^ eb + e).
  { symmetry. apply Z.div_unique with m; [lia|]. unfold z. rewrite P. ring. }
  split; [|split].
  - symmetry. apply Z.mod_unique with (s * 2 ^ eb + e); [lia|]. unfold z. rewrite P. ring.
  - rewrite E. symmetry. apply Z.mod_unique with s; [lia|ring].
  - rewrite P, <- Z.div_div, E by lia. symmetry. apply Z.div_unique with e; [lia|ring].
Qed.

Lemma parts z : 0 <= z < 2 ^ (mb + eb + 1) ->
  exists s e m, (s = 0 \/ s = 1) /\ 0 <= e < 2 ^ eb /\ 0 <= m < 2 ^ mb /\
    z = s * 2 ^ (mb + eb) + e * 2 ^ mb + m.
Proof.
  intros Hz. assert (P : 2 ^ (mb + eb) = 2 ^ mb * 2 ^ eb) by (apply Z.pow_add_r; lia).
  assert (Q : 2 ^ (mb + eb + 1) = 2 ^ (mb + eb) * 2) by (apply Z.pow_add_r; lia).
  assert (Pm : 0 < 2 ^ mb) by (apply Z.pow_pos_nonneg; lia).
  assert (Pe : 0 < 2 ^ eb) by (apply Z.pow_pos_nonneg; lia).
  exists (z / 2 ^ (mb + eb)), ((z / 2 ^ mb) mod 2 ^ eb), (z mod 2 ^ mb).
  split; [|split; [|split]].
  - assert (0 <= z / 2 ^ (mb + eb) < 2); [|lia].
    split; [apply Z.div_pos; lia|]. apply Z.div_lt_upper_bound; lia.
  - apply Z.mod_pos_bound; lia.
  - apply Z.mod_pos_bound; lia.
  - rewrite P, <- Z.div_div by lia.
    pose proof (Z.div_mod z (2 ^ mb)). pose proof (Z.div_mod (z / 2 ^ mb) (2 ^ eb)). nia.
Qed.

(** The magnitude, in units of the smallest positive number of the format. *)
Definition mag (e m : Z) : Z := (if e =? 0 then m else 2 ^ mb + m) * 2 ^ (Z.max e 1 - 1).

Lemma mag_lt e m e' m' : 0 <= e -> 0 <= e' -> 0 <= m < 2 ^ mb -> 0 <= m' < 2 ^ mb ->
  e * 2 ^ mb + m < e' * 2 ^ mb + m' -> mag e m < mag e' m'.
Proof.
  intros He He' Hm Hm' H. assert (Pm : 0 < 2 ^ mb) by (apply Z.pow_pos_nonneg; lia).
  assert (C : e < e' \/ e = e' /\ m < m') by nia. unfold mag. destruct C as [C|[<- C]].
  - destruct (Z.eqb_spec e' 0); [lia|]. replace (Z.max e' 1 - 1) with (e' - 1) by lia.
    assert (1 <= 2 ^ (e' - 1)) by (pose proof (Z.pow_pos_nonneg 2 (e' - 1)); lia).
    destruct (Z.eqb_spec e 0).
    + replace (Z.max e 1 - 1) with 0 by lia. rewrite Z.pow_0_r. nia.
    + replace (Z.max e 1 - 1) with (e - 1) by lia.
      assert (2 ^ e <= 2 ^ (e' - 1)) by (apply Z.pow_le_mono_r; lia).
      assert (2 ^ e = 2 * 2 ^ (e - 1)) by (rewrite <- Z.pow_succ_r by lia; f_equal; lia).
      assert (0 < 2 ^ (e - 1)) by (apply Z.pow_pos_nonneg; lia). nia.
  - assert (0 < 2 ^ (Z.max e 1 - 1)) by (apply Z.pow_pos_nonneg; lia).
    destruct (Z.eqb_spec e 0); nia.
Qed.

Lemma mag_nonneg e m : 0 <= e -> 0 <= m -> 0 <= mag e m.
Proof.
  intros He Hm. unfold mag. assert (0 < 2 ^ mb) by (apply Z.pow_pos_nonneg; lia).
  assert (0 < 2 ^ (Z.max e 1 - 1)) by (apply Z.pow_pos_nonneg; lia).
  destruct (Z.eqb_spec e 0); nia.
Qed.

Lemma mag_inj e m e' m' : 0 <= e -> 0 <= e' -> 0 <= m < 2 ^ mb -> 0 <= m' < 2 ^ mb ->
  mag e m = mag e' m' -> e = e' /\ m = m'.
Proof.
  intros He He' Hm Hm' H.
  destruct (Z.lt_trichotomy (e * 2 ^ mb + m) (e' * 2 ^ mb + m')) as [L|[E|L]].
  - pose proof (mag_lt e m e' m' He He' Hm Hm' L). lia.
  - apply (Z.div_mod_unique (2 ^ mb)); lia.
  - pose proof (mag_lt e' m' e m He' He Hm' Hm L). lia.
Qed.

End Format.

Definition unit_of (mb : Z) : Z := if mb =? 23 then 925 else 0.

Lemma fmt_pos w eb mb : is_fmt w eb mb -> 0 < eb /\ 0 < mb /\ 0 <= unit_of mb.
Proof. intros [(-> & -> & ->)|(-> & -> & ->)]; cbn; lia. Qed.

Lemma fmt_width w eb mb : is_fmt w eb mb -> pow256 w = 2 ^ (mb + eb + 1).
Proof. intros [(-> & -> & ->)|(-> & -> & ->)]; reflexivity. Qed.

Lemma fmt_ex w t : ffmt w = Some t -> exists eb mb, is_fmt w eb mb.
Proof.
  intros H. destruct (Nat.eqb_spec w 4) as [->|H4]; [exists 8, 23; left; auto|].
  destruct (Nat.eqb_spec w 8) as [->|H8]; [exists 11, 52; right; auto|].
  exfalso. clear - H H4 H8. do 9 (destruct w as [|w]; [try discriminate; lia|]). discriminate.
Qed.

Lemma fdec_parts w eb mb s e m : is_fmt w eb mb -> s = 0 \/ s = 1 ->
  0 <= e < 2 ^ eb -> 0 <= m < 2 ^ mb ->
  fdec w (s * 2 ^ (mb + eb) + e * 2 ^ mb + m) =
  if e =? 2 ^ eb - 1 then if m =? 0 then FInf (s =? 1) else FNaN
  else FFin ((1 - 2 * s) * (mag mb e m * 2 ^ unit_of mb)).
Proof.
  intros Hf Hs He Hm. destruct (fmt_pos _ _ _ Hf) as (P1 & P2 & P3).
  destruct (parts_of eb mb P1 P2 s e m Hm He) as (E1 & E2 & E3).
  assert (Hd : ffmt w = Some (eb, mb, unit_of mb)).
  { destruct Hf as [(-> & -> & ->)|(-> & -> & ->)]; reflexivity. }
  unfold fdec. rewrite Hd. cbv zeta. rewrite E1, E2, E3. fold (mag mb e m).
  destruct (e =? 2 ^ eb - 1).
  - destruct (m =? 0); auto. f_equal. destruct Hs as [-> | ->]; reflexivity.
  - f_equal. destruct Hs as [-> | ->]; cbn [Z.eqb negb]; lia.
Qed.

Lemma pattern w eb mb z : is_fmt w eb mb -> 0 <= z < pow256 w ->
  exists s e m, (s = 0 \/ s = 1) /\ 0 <= e < 2 ^ eb /\ 0 <= m < 2 ^ mb /\
    z = s * 2 ^ (mb + eb) + e * 2 ^ mb + m.
Proof.
  intros Hf Hz. rewrite (fmt_width _ _ _ Hf) in Hz. destruct (fmt_pos _ _ _ Hf) as (P1 & P2 & _).
  apply parts; auto.
Qed.

(** ** What a pattern means *)

Lemma float_meaning w eb mb s e m : is_fmt w eb mb -> s = 0 \/ s = 1 ->
  0 <= e < 2 ^ eb -> 0 <= m < 2 ^ mb ->
  let x := fdec w (s * 2 ^ (mb + eb) + e * 2 ^ mb + m) in
  (x = FNaN <-> e = 2 ^ eb - 1 /\ m <> 0) /\
  (e = 2 ^ eb - 1 -> m = 0 -> x = FInf (s =? 1)) /\
  (e < 2 ^ eb - 1 -> exists n, x = FFin n /\
     n * 2 ^ (2 ^ (eb - 1) - 1 + mb) =
     (1 - 2 * s) * ((if e =? 0 then 0 else 2 ^ mb) + m) * 2 ^ Z.max e 1 * 2 ^ 1074).
Proof.
  intros Hf Hs He Hm. cbv zeta. rewrite (fdec_parts w eb mb); auto.
  split; [|split].
  - destruct (Z.eqb_spec e (2 ^ eb - 1)); [destruct (Z.eqb_spec m 0)|];
      split; intros; try discriminate; try lia; auto.
  - intros -> ->. rewrite Z.eqb_refl. reflexivity.
  - intros L. destruct (Z.eqb_spec e (2 ^ eb - 1)); [lia|]. eexists. split; [reflexivity|].
    unfold mag.
    assert (Hh : (if e =? 0 then m else 2 ^ mb + m) = (if e =? 0 then 0 else 2 ^ mb) + m)
      by (destruct (e =? 0); lia).
    rewrite Hh. set (h := (if e =? 0 then 0 else 2 ^ mb) + m).
    assert (Hp : 2 ^ Z.max e 1 = 2 ^ (Z.max e 1 - 1) * 2).
    { rewrite <- (Z.pow_1_r 2) at 3. rewrite <- Z.pow_add_r by lia. f_equal. lia. }
    rewrite Hp.
    assert (Hu : 2 ^ unit_of mb * 2 ^ (2 ^ (eb - 1) - 1 + mb) = 2 * 2 ^ 1074).
    { destruct Hf as [(_ & -> & ->)|(_ & -> & ->)]; reflexivity. }
    transitivity ((1 - 2 * s) * h * 2 ^ (Z.max e 1 - 1) * (2 ^ unit_of mb * 2 ^ (2 ^ (eb - 1) - 1 + mb)));
      [ring|]. rewrite Hu. ring.
Qed.

(** ** Comparisons *)

Lemma float_trichotomy x y : x <> FNaN -> y <> FNaN ->
  (fless x y /\ ~ fequal x y /\ ~ fless y x) \/
  (fequal x y /\ ~ fless x y /\ ~ fless y x) \/
  (fless y x /\ ~ fequal x y /\ ~ fless x y).
Proof.
  intros Hx Hy. rewrite <- !fltb_iff, <- !feqb_iff.
  destruct x as [|[]|x], y as [|[]|y]; cbn; try congruence; try (intuition congruence).
  destruct (Z.lt_trichotomy x y) as [H|[->|H]]; [left|right; left|right; right]; lia.
Qed.

Lemma fless_trans x y z : fless x y -> fless y z -> fless x z.
Proof. intros H1 H2. inversion H1; subst; inversion H2; subst; constructor; lia. Qed.

Lemma nan_incomparable x : ~ fless FNaN x /\ ~ fless x FNaN /\ ~ fequal FNaN x /\ ~ fequal x FNaN.
Proof.
  split; [|split; [|split]].
  - intros H; inversion H.
  - intros H; inversion H.
  - intros [_ H]; congruence.
  - intros [-> H]; congruence.
Qed.

(** Only the two zeros are equal and have different patterns. *)
Lemma float_equal_bits w t a b : ffmt w = Some t -> 0 <= a < pow256 w -> 0 <= b < pow256 w ->
  (fequal (fdec w a) (fdec w b) <->
   (a = b /\ fdec w a <> FNaN) \/
   (a = 0 /\ 2 * b = pow256 w) \/ (b = 0 /\ 2 * a = pow256 w)).
Proof.
  intros Hw Ha Hb. destruct (fmt_ex _ _ Hw) as (eb & mb & Hf).
  destruct (fmt_pos _ _ _ Hf) as (P1 & P2 & P3).
  assert (Pm : 0 < 2 ^ mb) by (apply Z.pow_pos_nonneg; lia).
  assert (Hx : 1 < 2 ^ eb) by (apply Z.pow_gt_1; lia).
  assert (P : 2 ^ (mb + eb) = 2 ^ mb * 2 ^ eb) by (apply Z.pow_add_r; lia).
  assert (Q : pow256 w = 2 * 2 ^ (mb + eb)).
  { rewrite (fmt_width _ _ _ Hf), Z.pow_add_r by lia. lia. }
  split.
  - intros [He Hn].
    destruct (pattern w eb mb a Hf Ha) as (s & e & m & Hs & He1 & Hm1 & Ea).
    destruct (pattern w eb mb b Hf Hb) as (s' & e' & m' & Hs' & He2 & Hm2 & Eb).
    assert (Na := fdec_parts w eb mb s e m Hf Hs He1 Hm1).
    assert (Nb := fdec_parts w eb mb s' e' m' Hf Hs' He2 Hm2).
    rewrite <- Ea in Na. rewrite <- Eb in Nb. rewrite Na in He, Hn. rewrite Nb in He.
    destruct (Z.eqb_spec e (2 ^ eb - 1)), (Z.eqb_spec e' (2 ^ eb - 1)).
    + destruct (Z.eqb_spec m 0); [|congruence]. destruct (Z.eqb_spec m' 0); [|congruence].
      left. split; [|rewrite Na; intros X; destruct (m =? 0); congruence].
      injection He as He. assert (s = s') by (destruct Hs as [-> | ->], Hs' as [-> | ->]; try reflexivity; discriminate).
      congruence.
    + destruct (m =? 0); congruence.
    + destruct (m' =? 0); congruence.
    + injection He as He.
      assert (U : 0 < 2 ^ unit_of mb) by (apply Z.pow_pos_nonneg; lia).
      assert (M1 := mag_nonneg mb P2 e m ltac:(lia) ltac:(lia)).
      assert (M2 := mag_nonneg mb P2 e' m' ltac:(lia) ltac:(lia)).
      assert (He' : (1 - 2 * s) * mag mb e m = (1 - 2 * s') * mag mb e' m') by nia.
      assert (mag mb e m = mag mb e' m') as Hg by (destruct Hs as [-> | ->], Hs' as [-> | ->]; lia).
      destruct (mag_inj mb P2 e m e' m') as [-> ->]; try lia.
      destruct Hs as [-> | ->], Hs' as [-> | ->].
      * left. split; [congruence|]. rewrite Na. discriminate.
      * right. left. assert (mag mb e' m' = 0) by lia.
        assert (Z0 := mag_inj mb P2 e' m' 0 0 ltac:(lia) ltac:(lia) ltac:(lia) ltac:(lia)).
        destruct Z0 as [-> ->]; [unfold mag at 2; cbn; auto|]. lia.
      * right. right. assert (mag mb e' m' = 0) by lia.
        assert (Z0 := mag_inj mb P2 e' m' 0 0 ltac:(lia) ltac:(lia) ltac:(lia) ltac:(lia)).
        destruct Z0 as [-> ->]; [unfold mag at 2; cbn; auto|]. lia.
      * left. split; [congruence|]. rewrite Na. discriminate.
  - assert (F0 : fdec w 0 = FFin 0 /\ fdec w (2 ^ (mb + eb)) = FFin 0).
    { assert (G1 := fdec_parts w eb mb 0 0 0 Hf ltac:(auto) ltac:(lia) ltac:(lia)).
      assert (G2 := fdec_parts w eb mb 1 0 0 Hf ltac:(auto) ltac:(lia) ltac:(lia)).
      destruct (Z.eqb_spec 0 (2 ^ eb - 1)); [lia|]. unfold mag in G1, G2. cbn [Z.eqb] in G1, G2.
      rewrite <- G1 at 1. split; [f_equal; lia|].
      replace (2 ^ (mb + eb)) with (1 * 2 ^ (mb + eb) + 0 * 2 ^ mb + 0) by lia.
      rewrite G2. f_equal. }
    destruct F0 as [F0 F1]. intros [[-> H]|[[-> H]|[-> H]]].
    + split; auto.
    + replace b with (2 ^ (mb + eb)) by lia. rewrite F0, F1. split; [auto|discriminate].
    + replace a with (2 ^ (mb + eb)) by lia. rewrite F0, F1. split; [auto|discriminate].
Qed.

(** Non-negative patterns compare as numbers. *)
Lemma float_order_bits w t a b : ffmt w = Some t -> 0 <= a -> a < b -> 2 * b < pow256 w ->
  fdec w b <> FNaN -> fless (fdec w a) (fdec w b).
Proof.
  intros Hw Ha Hab Hb Hn. destruct (fmt_ex _ _ Hw) as (eb & mb & Hf).
  destruct (fmt_pos _ _ _ Hf) as (P1 & P2 & P3).
  assert (Pm : 0 < 2 ^ mb) by (apply Z.pow_pos_nonneg; lia).
  assert (Hx : 1 < 2 ^ eb) by (apply Z.pow_gt_1; lia).
  assert (P : 2 ^ (mb + eb) = 2 ^ mb * 2 ^ eb) by (apply Z.pow_add_r; lia).
  assert (Q : pow256 w = 2 * 2 ^ (mb + eb)).
  { rewrite (fmt_width _ _ _ Hf), Z.pow_add_r by lia. lia. }
  destruct (pattern w eb mb a Hf ltac:(lia)) as (s & e & m & Hs & He1 & Hm1 & Ea).
  destruct (pattern w eb mb b Hf ltac:(lia)) as (s' & e' & m' & Hs' & He2 & Hm2 & Eb).
  assert (s = 0) as -> by (destruct Hs as [-> | ->]; nia).
  assert (s' = 0) as -> by (destruct Hs' as [-> | ->]; nia).
  rewrite Ea, Eb in Hab |- *. rewrite Eb in Hn.
  rewrite (fdec_parts w eb mb 0 e' m') in Hn |- * by auto.
  rewrite (fdec_parts w eb mb 0 e m) by auto.
  assert (U : 0 < 2 ^ unit_of mb) by (apply Z.pow_pos_nonneg; lia).
  destruct (Z.eqb_spec e (2 ^ eb - 1)), (Z.eqb_spec e' (2 ^ eb - 1)).
  - exfalso. destruct (Z.eqb_spec m' 0); [|congruence]. nia.
  - exfalso. nia.
  - destruct (Z.eqb_spec m' 0); [|congruence]. constructor.
  - constructor. assert (L := mag_lt mb P2 e m e' m' ltac:(lia) ltac:(lia) Hm1 Hm2 ltac:(lia)). nia.
Qed.

(** ** Constraints *)

Lemma nan_constraint o w lit u z : fdec u z = FNaN -> o = OLt \/ o = OGt \/ o = OLte ->
  ~ holds (CFCmp o w lit) (VF u z).
Proof.
  intros Hz Ho (x & E & H). assert (x = FNaN) by (inversion E; subst; rewrite Hz; auto). subst x.
  destruct (nan_incomparable (fdec w lit)) as (N1 & N2 & N3 & N4).
  destruct Ho as [-> |[-> | ->]]; cbn in H; tauto.
Qed.

Lemma nan_any w lits u z : fdec u z = FNaN -> ~ holds (CFAny w lits) (VF u z).
Proof.
  intros Hz (x & E & H). assert (x = FNaN) by (inversion E; subst; rewrite Hz; auto). subst x.
  apply Exists_exists in H. destruct H as (l & _ & H).
  destruct (nan_incomparable (fdec w l)) as (N1 & N2 & N3 & N4). tauto.
Qed.

(** ** Pinned arrays *)

Lemma equal_bits t : ct_wf t = true -> forall v w, ct_ok t v -> ct_ok t w ->
  (equal_values v w <-> same_bits_but_zero v w).
Proof.
  induction t; intros Hw v w' Hv Hw'; destruct v; cbn [ct_ok] in Hv; try contradiction;
    destruct w'; cbn [ct_ok] in Hw'; try contradiction.
  - split; intros H; inversion H; constructor.
  - cbn in Hw. apply andb_true_iff in Hw. destruct Hw as [_ Hw].
    destruct Hv as [_ Hv]. destruct Hw' as [_ Hw'].
    assert (G : Forall2 equal_values l l0 <-> Forall2 same_bits_but_zero l l0).
    { revert l0 Hw'. induction Hv as [|x l Hx Hv IH]; intros l0 Hw'.
      - split; intros H; inversion H; constructor.
      - split; intros H; inversion H; subst; inversion Hw'; subst; constructor;
          try (apply IHt; auto; fail); apply IH; auto. }
    split; intros H; inversion H; subst; constructor; apply G; auto.
  - destruct Hv as [_ Hv]. destruct Hw' as [_ Hw'].
    assert (G : Forall2 equal_values l l0 <-> Forall2 same_bits_but_zero l l0).
    { revert l0 Hw'. induction Hv as [|x l (z & -> & _) Hv IH]; intros l0 Hw'.
      - split; intros H; inversion H; constructor.
      - split; intros H; inversion H; subst; inversion Hw' as [|? ? (z' & -> & _) Hw'']; subst;
          constructor; try (apply IH; auto; fail);
          match goal with H : _ (VZ _) (VZ _) |- _ => inversion H; constructor end. }
    split; intros H; inversion H; subst; constructor; apply G; auto.
  - cbn in Hw. destruct (ffmt w) as [t|] eqn:Ef; [|discriminate].
    destruct Hv as [-> Hv], Hw' as [-> Hw'].
    pose proof (float_equal_bits w t z z0 Ef Hv Hw') as B. split.
    + intros H. assert (H2 : fequal (fdec w z) (fdec w z0)) by (inversion H; auto).
      apply B in H2. destruct H2 as [[-> N]|[[-> N]|[-> N]]].
      * apply sb_same; auto.
      * apply sb_zero; auto.
      * apply sb_zero; auto.
    + intros H. assert (P := pow256_pos w). constructor.
      assert (C : (z = z0 /\ fdec w z <> FNaN) \/
                  ((z = 0 \/ 2 * z = pow256 w) /\ (z0 = 0 \/ 2 * z0 = pow256 w)))
        by (inversion H; subst; auto).
      destruct C as [[-> C]|[H2 H4]].
      * apply B. auto.
      * destruct H2 as [-> | H2], H4 as [-> | H4]; apply B; auto.
        -- left. split; auto. clear -Ef. destruct (fmt_ex _ _ Ef) as (eb & mb & Hf).
           destruct Hf as [(-> & _)|(-> & _)]; discriminate.
        -- left. assert (z = z0) by lia. subst. split; auto. intros N.
           assert (E := proj2 (float_equal_bits w t 0 z0 Ef ltac:(lia) Hw') ltac:(auto)).
           rewrite N in E. destruct E as [E1 E2]. congruence.
Qed.

(** ** Casts *)

Lemma sat_at fs : forall vs pre id t k v, sat_fields fs vs -> field_at fs vs pre id t k v -> holds k v.
Proof.
  intros vs pre id t k v Hs (post & vpre & vpost & -> & -> & Hl).
  revert vpre Hs Hl. induction pre as [|i t' k' pre IH]; intros [|x vpre] Hs Hl; cbn in *; try discriminate.
  - tauto.
  - apply (IH vpre); [tauto|lia].
Qed.

Lemma wf_at seen pre : forall id t k post, wf_fields seen (f_app pre (FCons id t k post)) = true ->
  exists seen', wf_ty seen' t = true.
Proof.
  revert seen. induction pre as [|i t' k' pre IH]; intros seen id t k post H; cbn in H;
    rewrite !andb_true_iff in H; destruct H as [[_ H1] H2]; eauto.
Qed.

Lemma typed_at G pre : forall id t k post, typed_fields G (f_app pre (FCons id t k post)) = true ->
  constr_ok t k = true.
Proof.
  revert G. induction pre as [|i t' k' pre IH]; intros G id t k post H; cbn in H;
    rewrite !andb_true_iff in H; destruct H as [[_ H1] H2]; eauto.
Qed.

Lemma valid_at c E pre : forall id t k post vs vpre v vpost,
  valid_fields c E (f_app pre (FCons id t k post)) vs -> vs = vpre ++ v :: vpost ->
  length vpre = f_len pre -> valid_ty c E t v.
Proof.
  induction pre as [|i t' k' pre IH]; intros id t k post vs [|x vpre] v vpost H -> Hl; cbn in *; try discriminate.
  - tauto.
  - destruct H as (_ & _ & H). eapply IH; eauto.
Qed.

Lemma read_no_nan c fs bs vs rest pre id n u k v : wf fs = true -> Forall byte_ok bs ->
  rmem (struct_cast c fs) bs = (Ok vs, rest) ->
  field_at fs vs pre id (FFixed (TFloat u) n) k v ->
  typed fs = true -> (exists o w lit, k = CFCmp o w lit) \/ (exists w lits, k = CFAny w lits) ->
  exists z, v = VF u z /\ fdec u z <> FNaN.
Proof.
  intros Hw Hb Hr Hat Ht Hk. pose proof (read_constraints _ _ _ _ _ Hw Hb Hr) as Hs.
  pose proof (sat_at _ _ _ _ _ _ _ Hs Hat) as H.
  destruct Hat as (post & vpre & vpost & -> & -> & Hl). unfold typed in Ht. apply typed_at in Ht.
  apply struct_cast_correct in Hr; auto. destruct Hr as [Hv _]. unfold valid in Hv.
  eapply valid_at in Hv; eauto. cbn in Hv. destruct v; cbn in Hv; try tauto.
  destruct Hv as [[-> Hv] _]. exists z. split; auto. intros N.
  destruct Hk as [(o & w' & lit & ->)|(w' & lits & ->)].
  - cbn in Ht. apply andb_true_iff in Ht. destruct Ht as [_ Ho].
    refine (nan_constraint o w' lit u z N _ H). destruct o; auto; discriminate.
  - exact (nan_any w' lits u z N H).
Qed.

Lemma read_pinned_floats c fs bs vs rest pre id n t lit v : wf fs = true -> typed fs = true ->
  Forall byte_ok bs -> rmem (struct_cast c fs) bs = (Ok vs, rest) ->
  field_at fs vs pre id (FFixed (TArr n t) (n * csize t)) (CArr false lit) v ->
  same_bits_but_zero v lit.
Proof.
  intros Hw Ht Hb Hr Hat. pose proof (read_constraints _ _ _ _ _ Hw Hb Hr) as Hs.
  pose proof (sat_at _ _ _ _ _ _ _ Hs Hat) as H.
  destruct Hat as (post & vpre & vpost & -> & -> & Hl). unfold typed in Ht. apply typed_at in Ht.
  pose proof Hw as Hwt. unfold wf in Hwt. apply wf_at in Hwt. destruct Hwt as [seen' Hwt].
  cbn [wf_ty] in Hwt. apply andb_true_iff in Hwt. destruct Hwt as [Hwt _].
  apply struct_cast_correct in Hr; auto. destruct Hr as [Hv _]. unfold valid in Hv.
  eapply valid_at in Hv; eauto. cbn [valid_ty] in Hv. destruct Hv as [Hv _].
  destruct H as [_ H]. cbn [constr_ok] in Ht. apply ct_okb_ok in Ht.
  apply (equal_bits (TArr n t)); auto.
Qed.

(** A literal with a NaN at the top of the array equals nothing. *)
Lemma nan_literal_unreadable c id n m post lit bs vs rest :
  wf (FCons id (FFixed (TArr n (TFloat 4)) m) (CArr false lit) post) = true ->
  Forall byte_ok bs ->
  match lit with VSeq (VF 4 z :: _) => match fdec 4 z with FNaN => true | _ => false end | _ => false end = true ->
  rmem (struct_cast c (FCons id (FFixed (TArr n (TFloat 4)) m) (CArr false lit) post)) bs <> (Ok vs, rest).
Proof.
  intros Hw Hb Hl Hr. pose proof (read_constraints _ _ _ _ _ Hw Hb Hr) as Hs.
  destruct vs as [|v vs]; [exact Hs|]. destruct Hs as [[_ Hs] _].
  destruct lit as [|[|[| | | | | |w z] l]| | | | |]; try discriminate.
  destruct (Nat.eq_dec w 4) as [->|Hn]; [|do 5 (destruct w as [|w]; try discriminate; try lia)].
  assert (Q : exists a, fequal (fdec 4 a) (fdec 4 z)).
  { inversion Hs as [| |q r F E1 E2]. inversion F as [|x y q' r' Hxy]. inversion Hxy. eauto. }
  destruct Q as [a [E N]]. rewrite E in N. destruct (fdec 4 z); congruence.
Qed.
