(** * C++ integral conversions, characterised *)
From Verif Require Import CTypes BytesFacts WriteFacts.
From Coq Require Import ZifyBool ZifyNat.

Lemma pow256_2 w : pow256 w = 2 ^ (8 * Z.of_nat w).
Proof. unfold pow256. rewrite Z.pow_mul_r by lia. reflexivity. Qed.

Lemma conv_unsigned w z :
  0 <= conv (SInt w false) z < 2 ^ (8 * Z.of_nat w) /\
  exists q, conv (SInt w false) z = z + q * 2 ^ (8 * Z.of_nat w).
Proof.
  rewrite <- pow256_2. pose proof (pow256_pos w). cbn [conv]. split.
  - apply Z.mod_pos_bound. lia.
  - exists (- (z / pow256 w)). pose proof (Z.div_mod z (pow256 w)). lia.
Qed.

Lemma conv_signed w z : (0 < w)%nat ->
  - 2 ^ (8 * Z.of_nat w - 1) <= conv (SInt w true) z < 2 ^ (8 * Z.of_nat w - 1) /\
  exists q, conv (SInt w true) z = z + q * 2 ^ (8 * Z.of_nat w).
Proof.
  intros Hw.
  assert (E : 2 ^ (8 * Z.of_nat w) = 2 * 2 ^ (8 * Z.of_nat w - 1)).
  { replace (8 * Z.of_nat w) with (1 + (8 * Z.of_nat w - 1)) at 1 by lia.
    rewrite Z.pow_add_r by lia. reflexivity. }
  pose proof (pow256_pos w) as P. rewrite pow256_2 in P.
  cbn [conv]. rewrite pow256_2. set (M := 2 ^ (8 * Z.of_nat w)) in *.
  set (H := 2 ^ (8 * Z.of_nat w - 1)) in *.
  pose proof (Z.mod_pos_bound z M P) as B. pose proof (Z.div_mod z M) as D.
  destruct (Z.ltb_spec (2 * (z mod M)) M).
  - split; [lia|]. exists (- (z / M)). lia.
  - split; [lia|]. exists (- (z / M) - 1). lia.
Qed.

Lemma mod_diff m a b : 0 < m -> ((a - b) mod m = 0 <-> exists q, a = b + q * m).
Proof.
  intros Hm. split.
  - intros E. apply Z.mod_divide in E; [|lia]. destruct E as [q E]. exists q. lia.
  - intros [q ->]. replace (b + q * m - b) with (q * m) by lia. apply Z.mod_mul. lia.
Qed.

Lemma conv_eq_iff w sg a b : (0 < w)%nat ->
  (conv (SInt w sg) a = conv (SInt w sg) b <-> (a - b) mod 2 ^ (8 * Z.of_nat w) = 0).
Proof.
  intros Hw. pose proof (pow256_pos w) as P. rewrite pow256_2 in P.
  rewrite mod_diff by assumption. split.
  - intros E. destruct sg.
    + destruct (conv_signed w a Hw) as [_ [p Hp]]. destruct (conv_signed w b Hw) as [_ [q Hq]].
      exists (q - p). lia.
    + destruct (conv_unsigned w a) as [_ [p Hp]]. destruct (conv_unsigned w b) as [_ [q Hq]].
      exists (q - p). lia.
  - intros [q ->]. cbn [conv]. rewrite !pow256_2, Z.mod_add by lia. reflexivity.
Qed.

Lemma common_width s1 s2 :
  exists sg, common s1 s2 = SInt (Nat.max 4 (Nat.max (ssize s1) (ssize s2))) sg.
Proof.
  assert (P : forall s, exists sg, promote s = SInt (Nat.max 4 (ssize s)) sg).
  { intros [w sg|]; cbn [promote ssize].
    - destruct (Nat.ltb_spec w 4).
      + exists true. f_equal. lia.
      + exists sg. f_equal. lia.
    - exists true. reflexivity. }
  unfold common. destruct (P s1) as [g1 ->]. destruct (P s2) as [g2 ->].
  destruct (Nat.eqb_spec (Nat.max 4 (ssize s1)) (Nat.max 4 (ssize s2))).
  - eexists. f_equal. lia.
  - destruct (Nat.ltb_spec (Nat.max 4 (ssize s1)) (Nat.max 4 (ssize s2))); eexists; f_equal; lia.
Qed.

Lemma cxx_eq_congruent s1 z1 s2 z2 :
  cxx_eq s1 z1 s2 z2 = true <->
  (z1 - z2) mod 2 ^ (8 * Z.max 4 (Z.max (Z.of_nat (ssize s1)) (Z.of_nat (ssize s2)))) = 0.
Proof.
  unfold cxx_eq. destruct (common_width s1 s2) as [sg ->].
  rewrite Z.eqb_eq, conv_eq_iff by lia.
  replace (Z.of_nat (Nat.max 4 (Nat.max (ssize s1) (ssize s2))))
    with (Z.max 4 (Z.max (Z.of_nat (ssize s1)) (Z.of_nat (ssize s2)))) by lia.
  reflexivity.
Qed.

Lemma sc_in_range s z : sc_in s z = true ->
  - 2 ^ (8 * Z.of_nat (ssize s)) <= 2 * z /\ z < 2 ^ (8 * Z.of_nat (ssize s)).
Proof.
  rewrite <- pow256_2. pose proof (pow256_pos (ssize s)).
  destruct s as [w [|]|]; cbn [sc_in ssize] in *; intros H0.
  - lia.
  - lia.
  - change (pow256 1) with 256 in *. lia.
Qed.

Lemma cxx_eq_exact s1 z1 s2 z2 : sc_in s1 z1 = true -> sc_in s2 z2 = true ->
  (0 <= z1 /\ 0 <= z2) \/ (z1 < 0 /\ z2 < 0) ->
  (cxx_eq s1 z1 s2 z2 = true <-> z1 = z2).
Proof.
  intros H1 H2 Hs. rewrite cxx_eq_congruent.
  apply sc_in_range in H1, H2.
  set (m := Z.max 4 (Z.max (Z.of_nat (ssize s1)) (Z.of_nat (ssize s2)))).
  assert (L1 : 2 ^ (8 * Z.of_nat (ssize s1)) <= 2 ^ (8 * m)) by (apply Z.pow_le_mono_r; lia).
  assert (L2 : 2 ^ (8 * Z.of_nat (ssize s2)) <= 2 ^ (8 * m)) by (apply Z.pow_le_mono_r; lia).
  assert (P : 0 < 2 ^ (8 * m)) by (apply Z.pow_pos_nonneg; lia).
  split.
  - intros E. apply mod_diff in E; [|assumption]. destruct E as [q E].
    assert (q = 0) by nia. subst q. lia.
  - intros ->. rewrite Z.sub_diag. apply Z.mod_0_l. lia.
Qed.

(** Two signed types never get confused. *)
Lemma cxx_eq_signed w1 z1 w2 z2 :
  sc_in (SInt w1 true) z1 = true -> sc_in (SInt w2 true) z2 = true ->
  (cxx_eq (SInt w1 true) z1 (SInt w2 true) z2 = true <-> z1 = z2).
Proof.
  intros H1 H2. rewrite cxx_eq_congruent. cbn [sc_in] in H1, H2. rewrite pow256_2 in H1, H2.
  cbn [ssize].
  set (m := Z.max 4 (Z.max (Z.of_nat w1) (Z.of_nat w2))).
  assert (L1 : 2 ^ (8 * Z.of_nat w1) <= 2 ^ (8 * m)) by (apply Z.pow_le_mono_r; lia).
  assert (L2 : 2 ^ (8 * Z.of_nat w2) <= 2 ^ (8 * m)) by (apply Z.pow_le_mono_r; lia).
  assert (P : 0 < 2 ^ (8 * m)) by (apply Z.pow_pos_nonneg; lia).
  split.
  - intros E. apply mod_diff in E; [|assumption]. destruct E as [q E].
    assert (q = 0) by nia. subst q. lia.
  - intros ->. rewrite Z.sub_diag. apply Z.mod_0_l. lia.
Qed.

Lemma conv_spec w sg z : (0 < w)%nat ->
  let m := 2 ^ (8 * Z.of_nat w) in
  (exists q, conv (SInt w sg) z = z + q * m) /\
  (if sg then - (m / 2) <= conv (SInt w sg) z < m / 2 else 0 <= conv (SInt w sg) z < m).
Proof.
  intros Hw m. destruct sg.
  - destruct (conv_signed w z Hw) as [H1 H2]. split; [exact H2|].
    replace (m / 2) with (2 ^ (8 * Z.of_nat w - 1)); [exact H1|].
    unfold m. rewrite <- (Z.pow_1_r 2) at 3. rewrite <- Z.pow_sub_r by lia. reflexivity.
  - destruct (conv_unsigned w z) as [H1 H2]. split; [exact H2|exact H1].
Qed.

Lemma conv_bool z : conv SBool z = if z =? 0 then 0 else 1.
Proof. reflexivity. Qed.
