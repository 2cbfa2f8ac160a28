(** Conversions between integers and floating-point numbers, and between those of
    different widths. *)
From Coq Require Import ZifyBool ZifyNat.
From Verif Require Import Read Spec WSpec FloatSpec PropDefs Typing BytesFacts ReadFacts ReadLemmas
  WriteFacts FloatFacts.
Local Open Scope Z_scope.

(** ** Rounding a magnitude *)

(** Rounding in the last binade. *)
Lemma top_case M h a q x : 0 < h -> a = 2 * h * q + x -> 0 <= x < 2 * h -> 0 <= q < 2 * M ->
  ((if (2 * h <? 2 * x) || ((2 * x =? 2 * h) && Z.odd q) then q + 1 else q) = 2 * M <->
   4 * M * h - h <= a).
Proof.
  intros Hh D Hx Hq.
  assert (C : 4 * M * h - h <= a <-> q = 2 * M - 1 /\ h <= x).
  { split.
    - intros G. destruct (Z.eq_dec q (2 * M - 1)) as [E|E]; [split; [auto|]; rewrite D, E in G; lia|].
      exfalso. pose proof (Z.mul_le_mono_nonneg_l q (2 * M - 2) h) as X.
      specialize (X ltac:(lia) ltac:(lia)). lia.
    - intros [G G']. rewrite D, G. lia. }
  rewrite C. clear C D. split.
  - intros G. destruct (Z.ltb_spec (2 * h) (2 * x)); cbn [orb] in G; [lia|].
    destruct (Z.eqb_spec (2 * x) (2 * h)); cbn [andb] in G; [|lia]. destruct (Z.odd q); lia.
  - intros [G1 G2]. assert (O : Z.odd q = true).
    { rewrite G1, Z.odd_sub, Z.odd_mul. reflexivity. }
    rewrite O. destruct (Z.ltb_spec (2 * h) (2 * x)); cbn [orb]; [lia|].
    destruct (Z.eqb_spec (2 * x) (2 * h)); cbn [andb]; lia.
Qed.

Section Round.
Variables eb mb u : Z.
Hypothesis Heb : 2 < eb.
Hypothesis Hmb : 0 < mb.
Hypothesis Hu : 0 <= u.
Variable a : Z.
Hypothesis Ha : 0 <= a.

Let l := Z.max (Z.log2 a - mb) u.
Let q := a / 2 ^ l.
Let r := 2 * (a mod 2 ^ l).
Let q' := if (2 ^ l <? r) || ((r =? 2 ^ l) && Z.odd q) then q + 1 else q.

Let Pl : 0 < 2 ^ l. Proof. apply Z.pow_pos_nonneg; lia. Qed.
Let Pm : 0 < 2 ^ mb. Proof. apply Z.pow_pos_nonneg; lia. Qed.
Let Pm1 : 2 ^ (mb + 1) = 2 * 2 ^ mb. Proof. rewrite Z.pow_add_r, Z.pow_1_r by lia. ring. Qed.
Let Da : a = 2 ^ l * q + a mod 2 ^ l. Proof. apply Z.div_mod. lia. Qed.
Let Ra : 0 <= a mod 2 ^ l < 2 ^ l. Proof. apply Z.mod_pos_bound. auto. Qed.

Lemma below_next : a < 2 ^ (mb + 1) * 2 ^ l.
Proof.
  rewrite <- Z.pow_add_r by lia. destruct (Z.eq_dec a 0) as [->|N]; [apply Z.pow_pos_nonneg; lia|].
  destruct (Z.log2_spec a) as [_ H]; [lia|]. eapply Z.lt_le_trans; [apply H|].
  apply Z.pow_le_mono_r; lia.
Qed.

Lemma above_this : u < l -> 2 ^ mb * 2 ^ l <= a.
Proof.
  intros L. rewrite <- Z.pow_add_r by lia.
  assert (E : mb + l = Z.log2 a) by lia. rewrite E.
  destruct (Z.eq_dec a 0) as [Z0|N].
  - rewrite Z0 in E. change (Z.log2 0) with 0 in E. lia.
  - apply Z.log2_spec. lia.
Qed.

Lemma q_bounds : 0 <= q < 2 ^ (mb + 1) /\ (u < l -> 2 ^ mb <= q).
Proof.
  split; [split|].
  - apply Z.div_pos; lia.
  - apply Z.div_lt_upper_bound; [lia|]. pose proof below_next. lia.
  - intros L. apply Z.div_le_lower_bound; [lia|]. pose proof (above_this L). lia.
Qed.

Lemma q'_bounds : 0 <= q' <= 2 ^ (mb + 1) /\ (u < l -> 2 ^ mb <= q') /\ q <= q' <= q + 1.
Proof.
  destruct q_bounds as [H1 H2]. unfold q'. destruct (_ || _); repeat split; intros; try lia;
    specialize (H2 ltac:(auto)); lia.
Qed.

(** The multiple of 2^l nearest to [a]. *)
Lemma q'_nearest k : Z.abs (a - q' * 2 ^ l) <= Z.abs (a - k * 2 ^ l) /\
  (Z.abs (a - q' * 2 ^ l) = Z.abs (a - k * 2 ^ l) -> k <> q' -> Z.even q' = true).
Proof.
  assert (E : Z.even q' = negb (Z.odd q')) by (rewrite <- Z.negb_odd; auto).
  revert E. generalize (Z.even q'). unfold q', r.
  pose proof Da as D. revert D Ra. generalize (a mod 2 ^ l). intros x D [Rx1 Rx2].
  assert (S : forall y, Z.abs (a - k * 2 ^ l) = y -> (k <= q -> y = (q - k) * 2 ^ l + x) /\
                        (q + 1 <= k -> y = (k - q) * 2 ^ l - x)).
  { intros y <-. split; intros H; nia. }
  destruct (S _ eq_refl) as [S1 S2]. clear S.
  destruct (Z.ltb_spec (2 ^ l) (2 * x)) as [L|L]; cbn [orb].
  - intros b _. assert (Y : Z.abs (a - (q + 1) * 2 ^ l) = 2 ^ l - x) by nia. rewrite Y.
    destruct (Z_le_gt_dec k q) as [K|K]; [rewrite S1 by auto|rewrite S2 by lia]; split; intros; nia.
  - destruct (Z.eqb_spec (2 * x) (2 ^ l)) as [T|T]; cbn [andb].
    + destruct (Z.odd q) eqn:O.
      * intros b ->. rewrite Z.odd_add, O. cbn [xorb Z.odd negb].
        assert (Y : Z.abs (a - (q + 1) * 2 ^ l) = 2 ^ l - x) by nia. rewrite Y.
        destruct (Z_le_gt_dec k q) as [K|K]; [rewrite S1 by auto|rewrite S2 by lia]; split; intros; auto; nia.
      * intros b ->. rewrite O. assert (Y : Z.abs (a - q * 2 ^ l) = x) by nia. rewrite Y.
        destruct (Z_le_gt_dec k q) as [K|K]; [rewrite S1 by auto|rewrite S2 by lia]; split; intros; auto; nia.
    + intros b _. assert (Y : Z.abs (a - q * 2 ^ l) = x) by nia. rewrite Y.
      destruct (Z_le_gt_dec k q) as [K|K]; [rewrite S1 by auto|rewrite S2 by lia]; split; intros; nia.
Qed.

(** The magnitude of the pattern. *)
Lemma pat_mag : let p := (l - u) * 2 ^ mb + q' in
  mag mb (p / 2 ^ mb) (p mod 2 ^ mb) * 2 ^ u = q' * 2 ^ l.
Proof.
  intros p. destruct q'_bounds as (B1 & B2 & _).
  assert (V : forall e m, 0 <= m < 2 ^ mb -> p = e * 2 ^ mb + m -> p / 2 ^ mb = e /\ p mod 2 ^ mb = m).
  { intros e m Hm E. split; symmetry; [apply Z.div_unique with m|apply Z.mod_unique with e]; lia. }
  assert (Pu : 2 ^ l = 2 ^ (l - u) * 2 ^ u) by (rewrite <- Z.pow_add_r by lia; f_equal; lia).
  rewrite Pu. unfold mag.
  destruct (Z.eq_dec q' (2 * 2 ^ mb)) as [F|F].
  - destruct (V (l - u + 2) 0) as [-> ->]; [lia|unfold p; rewrite F; ring|].
    destruct (Z.eqb_spec (l - u + 2) 0); [lia|]. replace (Z.max (l - u + 2) 1 - 1) with (l - u + 1) by lia.
    rewrite F, Z.pow_add_r, Z.pow_1_r by lia. ring.
  - destruct (Z_lt_ge_dec q' (2 ^ mb)) as [G|G].
    + assert (L : l = u) by lia. rewrite L, Z.sub_diag.
      destruct (V 0 q') as [-> ->]; [lia|unfold p; rewrite L; ring|]. cbn [Z.eqb Z.max]. rewrite Z.sub_diag. ring.
    + destruct (V (l - u + 1) (q' - 2 ^ mb)) as [-> ->]; [lia|unfold p; ring|].
      destruct (Z.eqb_spec (l - u + 1) 0); [lia|]. replace (Z.max (l - u + 1) 1 - 1) with (l - u) by lia.
      ring.
Qed.

(** Every number of the format is a multiple of 2^l, or less than the least with that unit. *)
Lemma number_unit e m : 0 <= e -> 0 <= m < 2 ^ mb ->
  (exists k, mag mb e m * 2 ^ u = k * 2 ^ l) \/ (u < l /\ mag mb e m * 2 ^ u < 2 ^ mb * 2 ^ l).
Proof.
  intros He Hm. assert (Pu : 0 < 2 ^ u) by (apply Z.pow_pos_nonneg; lia).
  destruct (Z.eq_dec l u) as [L|L].
  - left. exists (mag mb e m). rewrite L. auto.
  - assert (Q : 2 ^ l = 2 ^ (l - u) * 2 ^ u) by (rewrite <- Z.pow_add_r by lia; f_equal; lia).
    destruct (Z_le_gt_dec (l - u) (e - 1)) as [C|C].
    + left. exists ((2 ^ mb + m) * 2 ^ (e - 1 - (l - u))). unfold mag.
      destruct (Z.eqb_spec e 0); [lia|]. replace (Z.max e 1 - 1) with (e - 1) by lia.
      assert (S : 2 ^ (e - 1) = 2 ^ (e - 1 - (l - u)) * 2 ^ (l - u)) by (rewrite <- Z.pow_add_r by lia; f_equal; lia).
      rewrite S, Q. ring.
    + right. split; [lia|]. rewrite Q, Z.mul_assoc. apply Z.mul_lt_mono_pos_r; auto.
      assert (S : 2 ^ (l - u) = 2 * 2 ^ (l - u - 1)) by (rewrite <- Z.pow_succ_r by lia; f_equal; lia).
      assert (T : 2 ^ (Z.max e 1 - 1) <= 2 ^ (l - u - 1)) by (apply Z.pow_le_mono_r; lia).
      assert (0 < 2 ^ (Z.max e 1 - 1)) by (apply Z.pow_pos_nonneg; lia).
      unfold mag. set (v := 2 ^ (Z.max e 1 - 1)) in *. rewrite S.
      assert (V1 : 2 * 2 ^ mb * v <= 2 * 2 ^ mb * 2 ^ (l - u - 1)) by (apply Z.mul_le_mono_nonneg_l; lia).
      assert (V2 : m * v < 2 ^ mb * v) by (apply Z.mul_lt_mono_pos_r; lia).
      clearbody v. clear - V1 V2 H Pm. assert (0 < 2 ^ mb * v) by (apply Z.mul_pos_pos; auto).
      destruct (e =? 0); lia.
Qed.

Lemma mag_nearest e m : 0 <= e -> 0 <= m < 2 ^ mb ->
  let x := mag mb e m * 2 ^ u in
  Z.abs (a - q' * 2 ^ l) <= Z.abs (a - x) /\
  (Z.abs (a - q' * 2 ^ l) = Z.abs (a - x) -> x <> q' * 2 ^ l -> Z.even q' = true).
Proof.
  intros He Hm x. destruct (number_unit e m He Hm) as [[k E]|[L E]]; fold x in E.
  - rewrite E. destruct (q'_nearest k) as [N1 N2]. split; auto. intros H1 H2. apply N2; auto.
    intros ->. congruence.
  - destruct (q'_nearest (2 ^ mb)) as [N1 _]. pose proof (above_this L). split; lia.
Qed.

(** When the pattern is past the last number. *)
Let B := mb + 1 + (2 ^ eb - 3) + u.

Lemma past_last : (2 ^ eb - 1) * 2 ^ mb <= (l - u) * 2 ^ mb + q' <-> 2 ^ B - 2 ^ (B - mb - 2) <= a.
Proof.
  destruct q'_bounds as (B1 & B2 & B3). destruct q_bounds as (A1 & A2).
  assert (E8 : 8 <= 2 ^ eb) by (change 8 with (2 ^ 3); apply Z.pow_le_mono_r; lia).
  pose proof below_next as N. pose proof above_this as N'. rewrite <- Z.pow_add_r in N by lia.
  rewrite Pm1 in B1, A1.
  destruct (Z.lt_trichotomy (l - u) (2 ^ eb - 3)) as [L|[L|L]].
  - assert (M1 : 2 ^ (mb + 1 + l) <= 2 ^ (B - 1)) by (apply Z.pow_le_mono_r; lia).
    assert (M2 : 2 ^ B = 2 * 2 ^ (B - 1)) by (rewrite <- Z.pow_succ_r by lia; f_equal; lia).
    assert (M3 : 2 ^ (B - mb - 2) <= 2 ^ (B - 1)) by (apply Z.pow_le_mono_r; lia).
    pose proof (Z.mul_le_mono_nonneg_r (l - u) (2 ^ eb - 4) (2 ^ mb)) as M4.
    specialize (M4 ltac:(lia) ltac:(lia)). clear - M1 M2 M3 M4 N B1 Pm.
    rewrite Z.mul_sub_distr_r in M4 |- *. lia.
  - assert (Q : 2 ^ l = 2 * 2 ^ (B - mb - 2)) by (rewrite <- Z.pow_succ_r by lia; f_equal; lia).
    assert (PB : 2 ^ B = 4 * 2 ^ mb * 2 ^ (B - mb - 2)).
    { change 4 with (2 ^ 2). rewrite <- !Z.pow_add_r by lia. f_equal. lia. }
    assert (PB' : 0 < 2 ^ (B - mb - 2)) by (apply Z.pow_pos_nonneg; lia).
    rewrite PB, L. transitivity (q' = 2 * 2 ^ mb).
    { clear - B1. generalize dependent (2 ^ mb). intros M B1. rewrite !Z.mul_sub_distr_r. lia. }
    pose proof Da as D. pose proof Ra as R. unfold q', r. rewrite Q in *.
    apply top_case; auto.
  - assert (M1 : 2 ^ B <= 2 ^ (mb + l)) by (apply Z.pow_le_mono_r; lia).
    assert (M2 : 0 < 2 ^ (B - mb - 2)) by (apply Z.pow_pos_nonneg; lia).
    specialize (B2 ltac:(lia)). specialize (N' ltac:(lia)). rewrite <- Z.pow_add_r in N' by lia.
    pose proof (Z.mul_le_mono_nonneg_r (2 ^ eb - 2) (l - u) (2 ^ mb)) as M4.
    specialize (M4 ltac:(lia) ltac:(lia)). clear - M1 M2 M4 N' B2.
    rewrite Z.mul_sub_distr_r in M4 |- *. lia.
Qed.

Lemma no_rest : a mod 2 ^ l = 0 -> q' * 2 ^ l = a.
Proof.
  intros E. unfold q', r. rewrite E. destruct (Z.ltb_spec (2 ^ l) (2 * 0)); [lia|].
  destruct (Z.eqb_spec (2 * 0) (2 ^ l)); [lia|]. cbn. lia.
Qed.

End Round.

(** ** Rounding a number *)

Lemma fmt_unit w eb mb : is_fmt w eb mb -> ffmt w = Some (eb, mb, unit_of mb) /\ 2 < eb.
Proof. intros [(-> & -> & ->)|(-> & -> & ->)]; split; (reflexivity || lia). Qed.

(** The first magnitude that is rounded to infinity. *)
Definition limit (eb mb : Z) : Z :=
  let B := mb + 1 + (2 ^ eb - 3) + unit_of mb in 2 ^ B - 2 ^ (B - mb - 2).

Lemma pat_even s k eb mb q : 0 < eb -> 0 < mb -> Z.even q = true ->
  Z.even (s * 2 ^ (mb + eb) + (k * 2 ^ mb + q)) = true.
Proof.
  intros He Hm Hq. rewrite !Z.even_add, !Z.even_mul, Hq, !Z.even_pow by lia. cbn [Z.even].
  rewrite !orb_true_r. reflexivity.
Qed.

Lemma sign_away s s' a R x : s = 0 \/ s = 1 -> s' = 0 \/ s' = 1 -> 0 <= a -> 0 <= R -> 0 <= x ->
  (a = 0 -> R = 0) -> Z.abs (a - R) <= Z.abs (a - x) ->
  Z.abs ((1 - 2 * s) * a - (1 - 2 * s) * R) <= Z.abs ((1 - 2 * s) * a - (1 - 2 * s') * x) /\
  (Z.abs ((1 - 2 * s) * a - (1 - 2 * s) * R) = Z.abs ((1 - 2 * s) * a - (1 - 2 * s') * x) ->
   (1 - 2 * s') * x <> (1 - 2 * s) * R -> Z.abs (a - R) = Z.abs (a - x) /\ x <> R).
Proof. intros [-> | ->] [-> | ->] Ha HR HX H0 H; split; intros; try split; lia. Qed.

Lemma fenc_dec w eb mb n : is_fmt w eb mb ->
  (limit eb mb <= Z.abs n /\ fdec w (fenc w n) = FInf (n <? 0)) \/
  (Z.abs n < limit eb mb /\ nearest w n (fenc w n) /\
   (Z.abs n mod 2 ^ Z.max (Z.log2 (Z.abs n) - mb) (unit_of mb) = 0 -> fdec w (fenc w n) = FFin n)).
Proof.
  intros Hf. destruct (fmt_pos _ _ _ Hf) as (P1 & P2 & P3). destruct (fmt_unit _ _ _ Hf) as [Hd Heb].
  set (u := unit_of mb) in *. set (a := Z.abs n). assert (Ha : 0 <= a) by lia.
  pose proof (q'_bounds mb u P2 P3 a Ha) as QB. pose proof (pat_mag mb u P2 P3 a Ha) as PM.
  pose proof (mag_nearest eb mb u Heb P2 P3 a Ha) as MN.
  pose proof (past_last eb mb u Heb P2 P3 a Ha) as PL. pose proof (no_rest eb mb u Heb P2 P3 a) as NR.
  unfold limit. fold u. unfold fenc. rewrite Hd. cbv zeta. fold a.
  cbv zeta in PM, MN, PL, NR, QB.
  set (l := Z.max (Z.log2 a - mb) u) in *.
  set (q' := if (2 ^ l <? 2 * (a mod 2 ^ l)) || (2 * (a mod 2 ^ l) =? 2 ^ l) && Z.odd (a / 2 ^ l) then a / 2 ^ l + 1 else a / 2 ^ l) in *.
  set (T := 2 ^ (mb + 1 + (2 ^ eb - 3) + u) - 2 ^ (mb + 1 + (2 ^ eb - 3) + u - mb - 2)) in *.
  assert (Pm : 0 < 2 ^ mb) by (apply Z.pow_pos_nonneg; lia).
  assert (Pe : 8 <= 2 ^ eb) by (change 8 with (2 ^ 3); apply Z.pow_le_mono_r; lia).
  set (p := (l - u) * 2 ^ mb + q') in *.
  set (s := if n <? 0 then 1 else 0).
  assert (Hs : s = 0 \/ s = 1) by (unfold s; destruct (n <? 0); auto).
  assert (Es : (if n <? 0 then 2 ^ (mb + eb) else 0) = s * 2 ^ (mb + eb)) by (unfold s; destruct (n <? 0); lia).
  assert (Sn : n = (1 - 2 * s) * a) by (unfold s, a; clear; destruct (Z.ltb_spec n 0); lia).
  rewrite Es. destruct (Z_le_gt_dec ((2 ^ eb - 1) * 2 ^ mb) p) as [C|C].
  - left. split; [apply PL; auto|]. rewrite Z.min_r by auto.
    replace (s * 2 ^ (mb + eb) + (2 ^ eb - 1) * 2 ^ mb) with (s * 2 ^ (mb + eb) + (2 ^ eb - 1) * 2 ^ mb + 0) by ring.
    rewrite (fdec_parts w eb mb) by (auto; lia). rewrite !Z.eqb_refl. f_equal. unfold s. destruct (n <? 0); auto.
  - right. split; [lia|]. rewrite Z.min_l by lia.
    assert (Hp : 0 <= p).
    { destruct QB as [[Q _] _]. apply Z.add_nonneg_nonneg; [|auto].
      apply Z.mul_nonneg_nonneg; [unfold l|]; clear - Pm; lia. }
    assert (He : 0 <= p / 2 ^ mb < 2 ^ eb - 1).
    { split; [apply Z.div_pos; lia|]. apply Z.div_lt_upper_bound; lia. }
    assert (Hm : 0 <= p mod 2 ^ mb < 2 ^ mb) by (apply Z.mod_pos_bound; auto).
    assert (Ep : p = (p / 2 ^ mb) * 2 ^ mb + p mod 2 ^ mb) by (rewrite (Z.div_mod p (2 ^ mb)) at 1 by lia; ring).
    assert (F : fdec w (s * 2 ^ (mb + eb) + p) = FFin ((1 - 2 * s) * (q' * 2 ^ l))).
    { rewrite Ep at 1. rewrite Z.add_assoc. rewrite (fdec_parts w eb mb) by (auto; lia).
      destruct (Z.eqb_spec (p / 2 ^ mb) (2 ^ eb - 1)) as [X|X]; [clear - X He; lia|]. fold u. rewrite PM. auto. }
    assert (HR : 0 <= q' * 2 ^ l).
    { destruct QB as [[Q _] _]. apply Z.mul_nonneg_nonneg; [auto|]. apply Z.pow_nonneg. lia. }
    assert (R0 : a = 0 -> q' * 2 ^ l = 0).
    { intros E. destruct (MN 0 0 ltac:(lia) ltac:(lia)) as [N _]. change (mag mb 0 0) with 0 in N.
      revert N HR. generalize (q' * 2 ^ l). clear - E. intros; lia. }
    set (R := q' * 2 ^ l) in *.
    split; [|intros E; rewrite F; f_equal; rewrite (NR E); auto].
    exists ((1 - 2 * s) * R). split; [auto|]. split.
    { rewrite Sn. replace ((1 - 2 * s) * a * ((1 - 2 * s) * R)) with (a * R) by (destruct Hs as [-> | ->]; ring).
      apply Z.mul_nonneg_nonneg; auto. }
    intros z' m' Hz' Hd'. destruct (pattern w eb mb z' Hf Hz') as (s' & e & m & Hs' & He' & Hm' & ->).
    rewrite (fdec_parts w eb mb) in Hd' by (auto; lia).
    destruct (Z.eqb_spec e (2 ^ eb - 1)); [destruct (m =? 0); discriminate|].
    assert (Em : m' = (1 - 2 * s') * (mag mb e m * 2 ^ u)) by (inversion Hd'; auto). clear Hd'.
    destruct (MN e m ltac:(lia) Hm') as [N1 N2].
    assert (X : 0 <= mag mb e m * 2 ^ u).
    { apply Z.mul_nonneg_nonneg; [apply mag_nonneg; lia|apply Z.pow_nonneg; lia]. }
    set (x := mag mb e m * 2 ^ u) in *. rewrite Em, Sn.
    destruct (sign_away s s' a R x Hs Hs' Ha HR X R0 N1) as [S1 S2]. split; [exact S1|].
    intros E D. assert (Q : Z.even q' = true) by (destruct (S2 E D); auto).
    apply pat_even; auto.
Qed.

(** Every number of a format is less than that. *)
Lemma number_below w eb mb z n : is_fmt w eb mb -> 0 <= z < pow256 w -> fdec w z = FFin n ->
  Z.abs n < limit eb mb.
Proof.
  intros Hf Hz Hd. destruct (fmt_pos _ _ _ Hf) as (P1 & P2 & P3). destruct (fmt_unit _ _ _ Hf) as [_ Heb].
  destruct (pattern w eb mb z Hf Hz) as (s & e & m & Hs & He & Hm & ->).
  rewrite (fdec_parts w eb mb) in Hd by (auto; lia).
  destruct (Z.eqb_spec e (2 ^ eb - 1)) as [|N]; [destruct (m =? 0); discriminate|].
  assert (En : n = (1 - 2 * s) * (mag mb e m * 2 ^ unit_of mb)) by (inversion Hd; auto). clear Hd.
  assert (E8 : 8 <= 2 ^ eb) by (change 8 with (2 ^ 3); apply Z.pow_le_mono_r; lia).
  assert (Pm : 0 < 2 ^ mb) by (apply Z.pow_pos_nonneg; lia).
  assert (X : 0 <= mag mb e m * 2 ^ unit_of mb).
  { apply Z.mul_nonneg_nonneg; [apply mag_nonneg; lia|apply Z.pow_nonneg; lia]. }
  assert (A : Z.abs n = mag mb e m * 2 ^ unit_of mb) by (rewrite En; destruct Hs as [-> | ->]; lia).
  rewrite A. unfold limit. cbv zeta. set (B := mb + 1 + (2 ^ eb - 3) + unit_of mb).
  set (h := 2 ^ (B - mb - 2)).
  assert (PB : 2 ^ B = 4 * 2 ^ mb * h).
  { unfold h. change 4 with (2 ^ 2). rewrite <- !Z.pow_add_r by lia. f_equal. lia. }
  assert (Ph : 0 < h) by (apply Z.pow_pos_nonneg; lia).
  assert (L : 2 ^ (Z.max e 1 - 1) * 2 ^ unit_of mb <= 2 * h).
  { unfold h. rewrite <- Z.pow_add_r, <- Z.pow_succ_r by lia. apply Z.pow_le_mono_r; lia. }
  assert (L0 : 0 < 2 ^ (Z.max e 1 - 1) * 2 ^ unit_of mb) by (apply Z.mul_pos_pos; apply Z.pow_pos_nonneg; lia).
  unfold mag. rewrite <- Z.mul_assoc. rewrite PB. set (v := 2 ^ (Z.max e 1 - 1) * 2 ^ unit_of mb) in *.
  clearbody v h. clear - Hm L L0 Ph Pm. destruct (e =? 0); nia.
Qed.

Lemma fround_fin w eb mb n : is_fmt w eb mb ->
  (limit eb mb <= Z.abs n <-> fround w (FFin n) = FInf (n <? 0)) /\
  (Z.abs n < limit eb mb <-> exists m, fround w (FFin n) = FFin m).
Proof.
  intros Hf. unfold fround. destruct (fenc_dec w eb mb n Hf) as [(L & E)|(L & (m & E & _) & _)]; rewrite E.
  - split; split; intros H; auto; [lia|destruct H; discriminate].
  - split; split; intros H; eauto; try discriminate; lia.
Qed.

Lemma fround_nearest w eb mb n m : is_fmt w eb mb -> fround w (FFin n) = FFin m -> nearest w n (fenc w n).
Proof.
  intros Hf H. unfold fround in H. destruct (fenc_dec w eb mb n Hf) as [(L & E)|(L & N & _)]; auto.
  rewrite E in H. discriminate.
Qed.

Lemma limit4 : limit 8 23 = units (2 ^ 128 - 2 ^ 103).
Proof. vm_compute. reflexivity. Qed.
Lemma limit8 : limit 11 52 = units (2 ^ 1024 - 2 ^ 970).
Proof. vm_compute. reflexivity. Qed.

(** Numbers of the format stay what they are. *)
Lemma fround_id w eb mb z n : is_fmt w eb mb -> 0 <= z < pow256 w -> fdec w z = FFin n ->
  fround w (FFin n) = FFin n.
Proof.
  intros Hf Hz Hd. pose proof (number_below w eb mb z n Hf Hz Hd) as L.
  unfold fround. destruct (fenc_dec w eb mb n Hf) as [(L' & _)|(_ & (m & E & _ & N) & _)]; [lia|].
  rewrite E. f_equal. destruct (N z n Hz Hd). lia.
Qed.

(** A number of the format on one side of a number is on the same side of what it is
    rounded to. *)
Lemma fround_side w eb mb n z m : is_fmt w eb mb -> 0 <= z < pow256 w -> fdec w z = FFin m ->
  (n <= m -> ~ fless (FFin m) (fround w (FFin n))) /\
  (m <= n -> ~ fless (fround w (FFin n)) (FFin m)).
Proof.
  intros Hf Hz Hd. pose proof (number_below w eb mb z m Hf Hz Hd) as L.
  unfold fround. destruct (fenc_dec w eb mb n Hf) as [(L' & E)|(_ & (m1 & E & _ & N) & _)]; rewrite E.
  - destruct (Z.ltb_spec n 0); split; intros H1 H2; inversion H2; lia.
  - destruct (N z m Hz Hd) as [N1 _]. split; intros H1 H2; inversion H2; lia.
Qed.

(** Whole numbers of no more bits than the fraction has, and one. *)
Lemma fround_int w eb mb z : is_fmt w eb mb -> Z.abs z <= 2 ^ (mb + 1) ->
  fround w (FFin (units z)) = FFin (units z).
Proof.
  intros Hf Hz. destruct (fmt_pos _ _ _ Hf) as (P1 & P2 & P3).
  assert (U : unit_of mb <= 1074) by (destruct Hf as [(_ & _ & ->)|(_ & _ & ->)]; cbn; lia).
  assert (A : Z.abs (units z) = Z.abs z * 2 ^ 1074).
  { unfold units. rewrite Z.abs_mul. f_equal. }
  assert (B : Z.abs (units z) < limit eb mb).
  { rewrite A. eapply Z.le_lt_trans; [apply Z.mul_le_mono_nonneg_r; [apply Z.pow_nonneg; lia|apply Hz]|].
    destruct Hf as [(_ & -> & ->)|(_ & -> & ->)]; vm_compute; reflexivity. }
  unfold fround. destruct (fenc_dec w eb mb (units z) Hf) as [(L & _)|(_ & _ & X)]; [lia|].
  apply X. rewrite A. clear X B A. destruct (Z.eq_dec (Z.abs z) 0) as [->|N].
  { rewrite Z.mul_0_l. apply Z.mod_0_l. apply Z.pow_nonzero; lia. }
  rewrite Z.log2_mul_pow2 by lia.
  assert (D : forall l, 0 <= l <= 1074 -> (Z.abs z * 2 ^ 1074) mod 2 ^ l = 0).
  { intros l Hl. replace 1074 with ((1074 - l) + l) by lia. rewrite Z.pow_add_r, Z.mul_assoc by lia.
    apply Z.mod_mul. apply Z.pow_nonzero; lia. }
  destruct (Z.eq_dec (Z.abs z) (2 ^ (mb + 1))) as [E|NE].
  - rewrite E, Z.log2_pow2, <- Z.pow_add_r by lia.
    replace (Z.max (1074 + (mb + 1) - mb) (unit_of mb)) with 1075 by (clear - U; lia).
    replace (mb + 1 + 1074) with (mb + 1075) by lia. rewrite Z.pow_add_r by lia.
    apply Z.mod_mul. apply Z.pow_nonzero; lia.
  - apply D. assert (G : Z.log2 (Z.abs z) < mb + 1) by (apply Z.log2_lt_pow2; clear - N NE Hz; lia).
    clear - G U P3. lia.
Qed.

Lemma fround_overflow n :
  (units (2 ^ 128 - 2 ^ 103) <= Z.abs n <-> fround 4 (FFin n) = FInf (n <? 0)) /\
  (Z.abs n < units (2 ^ 128 - 2 ^ 103) <-> exists m, fround 4 (FFin n) = FFin m) /\
  (units (2 ^ 1024 - 2 ^ 970) <= Z.abs n <-> fround 8 (FFin n) = FInf (n <? 0)) /\
  (Z.abs n < units (2 ^ 1024 - 2 ^ 970) <-> exists m, fround 8 (FFin n) = FFin m).
Proof.
  rewrite <- limit4, <- limit8.
  destruct (fround_fin 4 8 23 n) as [A1 A2]; [left; auto|].
  destruct (fround_fin 8 11 52 n) as [B1 B2]; [right; auto|]. auto.
Qed.

Lemma fround_exact w eb mb : is_fmt w eb mb ->
  (forall z n, 0 <= z < pow256 w -> fdec w z = FFin n -> fround w (FFin n) = FFin n) /\
  (forall z, Z.abs z <= 2 ^ (mb + 1) -> fround w (FFin (units z)) = FFin (units z)).
Proof. intros Hf. split; intros; [eapply fround_id|eapply fround_int]; eauto. Qed.

(** ** Integer literals on floating-point fields *)

Lemma whole_compare n z lit : whole_part n z ->
  (0 < lit -> (z < lit <-> n < units lit)) /\ (lit <= 0 -> (z < lit <-> n <= units (lit - 1))) /\
  (lit < 0 -> (lit < z <-> units lit < n)) /\ (0 <= lit -> (lit < z <-> units (lit + 1) <= n)) /\
  (0 < lit -> (z = lit <-> units lit <= n < units (lit + 1))) /\
  (z = 0 <-> units (-1) < n < units 1) /\
  (lit < 0 -> (z = lit <-> units (lit - 1) < n <= units lit)).
Proof.
  intros H. assert (W : 0 <= n /\ z * 2 ^ 1074 <= n < (z + 1) * 2 ^ 1074 /\ 0 <= z \/
                        n < 0 /\ (z - 1) * 2 ^ 1074 < n <= z * 2 ^ 1074 /\ z <= 0).
  { unfold whole_part in H. pose proof pow_1074 as P. set (d := 2 ^ 1074) in *. clearbody d.
    destruct H as [H1 H2]. destruct (Z_lt_le_dec n 0) as [N|N].
    - right. assert (z <= 0) by nia. split; [auto|]. split; [nia|auto].
    - left. split; [auto|]. assert (0 <= z) by (destruct (Z.eq_dec n 0) as [->|]; nia). split; [nia|auto]. }
  clear H. unfold units. pose proof pow_1074 as P. set (d := 2 ^ 1074) in *. clearbody d.
  repeat split; intros; destruct W as [(W1 & W2 & W3)|(W1 & W2 & W3)]; nia.
Qed.

Lemma no_int w sg u y : (forall z, ~ int_of (SInt w sg) (VF u y) z) <->
  fdec u y = FNaN \/ (exists b, fdec u y = FInf b) \/
  exists n z, fdec u y = FFin n /\ whole_part n z /\ sc_in (SInt w sg) z = false.
Proof.
  split.
  - intros H. destruct (fdec u y) as [|b|n] eqn:E; [auto|right; left; eauto|]. right. right.
    exists n, (Z.quot n (2 ^ 1074)). assert (W : whole_part n (Z.quot n (2 ^ 1074))) by (apply whole_part_iff; auto).
    split; [auto|]. split; [auto|]. destruct (sc_in (SInt w sg) (Z.quot n (2 ^ 1074))) eqn:I; auto.
    exfalso. apply (H (Z.quot n (2 ^ 1074))). apply io_float with (n := n); auto. discriminate.
  - intros H z I. inversion I as [|? ? n' ? _ E W S|? ? N|? ? N]; subst; try discriminate.
    destruct H as [H|[[b H]|(n & z' & H & W' & S')]]; try congruence.
    assert (n = n') by congruence. subst n'. apply whole_part_iff in W, W'. congruence.
Qed.

Lemma mixed_none c id t o s lit bs v rest :
  rmem (struct_cast c (FCons id t CNone FNil)) bs = (Ok [v], rest) -> (exists u y, v = VF u y) ->
  ((forall z, ~ int_of s v z) ->
   rmem (struct_cast c (FCons id t (CCmp o s lit) FNil)) bs = (UB, rest)) /\
  (forall z, int_of s v z -> cmp_holds o z lit ->
   rmem (struct_cast c (FCons id t (CCmp o s lit) FNil)) bs = (Ok [v], rest)) /\
  (forall z, int_of s v z -> ~ cmp_holds o z lit ->
   rmem (struct_cast c (FCons id t (CCmp o s lit) FNil)) bs = (Err (ValidationFailure, id), rest)).
Proof.
  intros H (u & y & ->). rewrite (one_field_constraint _ _ _ _ _ _ _ H). cbn [check].
  split; [|split].
  - intros N. destruct (as_int s (VF u y)) as [[z|]|] eqn:E; [|auto|discriminate].
    apply as_int_iff in E. exfalso. eapply N, E.
  - intros z I K. apply as_int_iff in I. rewrite I. apply do_cmp_iff in K. rewrite K. auto.
  - intros z I K. apply as_int_iff in I. rewrite I.
    destruct (do_cmp o z lit) eqn:D; [apply do_cmp_iff in D; contradiction|auto].
Qed.

Lemma mixed_any c id t s lits bs v rest :
  rmem (struct_cast c (FCons id t CNone FNil)) bs = (Ok [v], rest) -> (exists u y, v = VF u y) ->
  ((forall z, ~ int_of s v z) ->
   rmem (struct_cast c (FCons id t (CAny s lits) FNil)) bs = (UB, rest)) /\
  (forall z, int_of s v z -> In z lits ->
   rmem (struct_cast c (FCons id t (CAny s lits) FNil)) bs = (Ok [v], rest)) /\
  (forall z, int_of s v z -> ~ In z lits ->
   rmem (struct_cast c (FCons id t (CAny s lits) FNil)) bs = (Err (ValidationFailure, id), rest)).
Proof.
  intros H (u & y & ->). rewrite (one_field_constraint _ _ _ _ _ _ _ H). cbn [check].
  assert (X : forall z, existsb (fun l => z =? l) lits = true <-> In z lits).
  { intros z. rewrite existsb_exists. split; [intros (x & Hx & E); apply Z.eqb_eq in E; subst; auto|].
    intros I. exists z. split; auto. apply Z.eqb_refl. }
  split; [|split].
  - intros N. destruct (as_int s (VF u y)) as [[z|]|] eqn:E; [|auto|discriminate].
    apply as_int_iff in E. exfalso. eapply N, E.
  - intros z I K. apply as_int_iff in I. rewrite I. apply X in K. rewrite K. auto.
  - intros z I K. apply as_int_iff in I. rewrite I.
    destruct (existsb _ lits) eqn:D; [apply X in D; contradiction|auto].
Qed.

(** ** Floating-point literals *)

Lemma float_side w eb mb lit m v n x : is_fmt w eb mb -> 0 <= lit < pow256 w -> fdec w lit = FFin m ->
  stands_for v n -> float_of w v x ->
  (fless x (FFin m) -> n < m) /\ (fless (FFin m) x -> m < n) /\ (n = m -> fequal x (FFin m)).
Proof.
  intros Hf Hl Hd Hn Hx.
  assert (R : (fless (fround w (FFin n)) (FFin m) -> n < m) /\ (fless (FFin m) (fround w (FFin n)) -> m < n) /\
              (n = m -> fequal (fround w (FFin n)) (FFin m))).
  { destruct (fround_side w eb mb n lit m Hf Hl Hd) as [S1 S2]. split; [|split].
    - intros L. destruct (Z_lt_le_dec n m); auto. exfalso. apply S2; auto.
    - intros L. destruct (Z_lt_le_dec m n); auto. exfalso. apply S1; auto.
    - intros ->. rewrite (fround_id w eb mb lit m Hf Hl Hd). split; [reflexivity|discriminate]. }
  inversion Hn; subst; inversion Hx; subst.
  - exact R.
  - rewrite H. split; [|split]; intros L; try (inversion L; auto; fail). subst. split; [reflexivity|discriminate].
  - rewrite H. exact R.
Qed.

Lemma float_sides w eb mb lit m v n : is_fmt w eb mb -> 0 <= lit < pow256 w -> fdec w lit = FFin m ->
  stands_for v n ->
  (holds (CFCmp OLt w lit) v -> n < m) /\ (holds (CFCmp OGt w lit) v -> m < n) /\
  (n <= m -> holds (CFCmp OLte w lit) v) /\
  (forall lits, In lit lits -> n = m -> holds (CFAny w lits) v).
Proof.
  intros Hf Hl Hd Hn.
  assert (X : exists x, float_of w v x).
  { inversion Hn; subst; [eexists; constructor|]. destruct (Nat.le_gt_cases u w); eexists; [apply fo_wide|apply fo_narrow]; auto. }
  destruct X as [x Hx].
  destruct (float_side w eb mb lit m v n x Hf Hl Hd Hn Hx) as (S1 & S2 & S3).
  assert (U : forall x', float_of w v x' -> x' = x).
  { intros x' H. inversion Hx; subst; inversion H; subst; auto; lia. }
  split; [|split; [|split]].
  - intros (x' & H1 & H2). rewrite (U _ H1), Hd in H2. apply S1, H2.
  - intros (x' & H1 & H2). rewrite (U _ H1), Hd in H2. apply S2, H2.
  - intros L. exists x. split; auto. rewrite Hd. cbn.
    assert (T : x <> FNaN).
    { inversion Hn; subst; inversion Hx; subst; try rewrite H; try discriminate;
        match goal with |- fround w (FFin ?k) <> _ =>
          destruct (fround_fin w eb mb k Hf) as [[F _] [G _]];
          destruct (Z_lt_le_dec (Z.abs k) (limit eb mb)) as [C|C];
          [destruct (G C) as [? ->]; discriminate|rewrite (F C); discriminate]
        end. }
    destruct (float_trichotomy x (FFin m) T ltac:(discriminate)) as [(A & _)|[(A & _)|(A & _)]]; auto.
    apply S2 in A. lia.
  - intros lits I E. exists x. split; auto. apply Exists_exists. exists lit. split; auto. rewrite Hd. auto.
Qed.
