(** * Guards that are exact
    What is proved under a condition, and fails without it whenever the condition fails. *)
From Coq Require Import ZifyBool ZifyNat Lia.
From Verif Require Import PropDefs BytesFacts ProgFacts ReadFacts ReadLemmas ReadMore Safety ReadFinal.
From Verif Require Import WriteFacts WriteMain WriteLoc WriteErr WriteRel WriteMore WriteFinal RTrip RTrip2 Rewrite.
From Verif Require Import WExact ConvFacts Narrow ExactFacts.
Local Open Scope Z_scope.

(** ** Comparisons *)

Lemma full_cut o s z : cut o s (ssize s) z = z.
Proof. destruct o; cbn [cut]; [rewrite Nat.ltb_irrefl|rewrite Nat.sub_diag, Z.mod_1_r]; lia. Qed.

Lemma compare_guard c id ft s : ct_wf (TScalar ft) = true ->
  ((forall o lit bs z rest, Forall byte_ok bs -> sc_in s lit = true ->
      rmem (struct_cast c (FCons id (FFixed (TScalar ft) (ssize ft)) CNone FNil)) bs = (Ok [VZ z], rest) ->
      (fst (rmem (struct_cast c (FCons id (FFixed (TScalar ft) (ssize ft)) (CCmp o s lit) FNil)) bs) = Ok [VZ z] <->
       cmp_holds o z lit)) <->
   (forall z, sc_in ft z = true -> sc_in s z = true)).
Proof.
  intros W. split.
  - intros H z Hz. assert (0 < ssize ft)%nat as Hp by (apply Nat.ltb_lt; exact W).
    destruct (slot_trip c id ft (ssize ft) z [] ltac:(lia) W Hz) as (out & Ho & Hr).
    rewrite app_nil_r, full_cut in Hr.
    assert (B : Forall byte_ok out).
    { rewrite <- (app_nil_r out) in Hr.
      rewrite (write_encodes c (FCons id (FFixed (TScalar ft) (ssize ft)) CNone FNil) [VZ z] out); auto.
      - apply (proj1 (proj2 (has_bytes (c_wire c)))). cbn. auto.
      - unfold wf. cbn -[ct_wf csize]. rewrite W. cbn. rewrite Nat.leb_refl. reflexivity.
      - cbn. auto. }
    destruct (H OEq (conv s z) out z [] B (conv_in s z) Hr) as [H1 _].
    rewrite (one_field_constraint _ _ _ _ _ _ _ Hr) in H1. cbn [check as_int do_cmp] in H1.
    rewrite Z.eqb_refl in H1. specialize (H1 eq_refl). cbn in H1. rewrite H1. apply conv_in.
  - intros H o lit bs z rest B Hl Hr.
    assert (Wf : wf (FCons id (FFixed (TScalar ft) (ssize ft)) CNone FNil) = true).
    { unfold wf. cbn -[ct_wf csize]. rewrite W. cbn. rewrite Nat.leb_refl. reflexivity. }
    destruct (read_sound _ _ _ _ _ Wf B Hr) as [V _]. cbn in V.
    destruct (compare_exact c id ft (ssize ft) o s lit bs z rest (H z (proj1 (proj1 V))) Hr) as [H1 H2].
    destruct (do_cmp o z lit) eqn:E.
    + apply do_cmp_iff in E. rewrite H1 by auto. cbn. tauto.
    + assert (~ cmp_holds o z lit) as N by (intros G; apply do_cmp_iff in G; congruence).
      rewrite H2 by auto. cbn. split; [discriminate|tauto].
Qed.

(** ** Lengths *)

Lemma length_exact c fs vs pre id s n k v out pre' id' t' k' v' m :
  wf fs = true -> typed fs = true -> has_fields fs vs ->
  field_at fs vs pre id (FFixed (TScalar s) n) k v ->
  field_at fs vs pre' id' t' k' v' -> sized_by id t' v' = Some m -> (1 < c_szw c)%nat ->
  wmem (stream_cast c fs vs) = (Ok tt, out) ->
  exists bs rest, out = bytes_before c pre (emitted c fs vs) ++ bs ++ rest /\ length bs = n /\
    (number (c_wire c) bs = Z.of_nat m <-> c_wire c = Little \/ n = ssize s \/ m = 0%nat).
Proof.
  intros Hw Ht Hv Hat Hat' Hs Hsz Hok.
  assert (Hin : In (Z.of_nat m) (claims c id fs vs)) by (eapply claim_in; eauto; apply sized_claim; auto).
  destruct (ok_at _ _ _ _ _ _ _ _ _ Hw Ht Hv Hat Hok) as (part & rest & Hp & He & ->).
  assert (Hcl : claims c id fs vs <> []) by (intros E; rewrite E in Hin; auto).
  destruct (derived_scalar c _ _ _ _ _ _ _ Hw Ht Hv Hat Hcl) as [_ (s' & n' & E & Hn & Hs0)].
  inversion E; subst s' n'. clear E.
  destruct (derived_prog c _ _ _ _ _ _ _ _ Hw Ht Hv Hat Hcl) as (z0 & l & Hc & Hp').
  rewrite Hp' in Hp. clear Hp'.
  destruct (forallb (Z.eqb z0) l) eqn:Ef; [|discriminate].
  destruct (fits_declared_width c s n z0) eqn:Efit; [|discriminate].
  assert (Z.of_nat m = z0) as Em.
  { rewrite Hc in Hin. destruct Hin as [|Hx]; auto.
    rewrite forallb_forall in Ef. symmetry. apply Z.eqb_eq. auto. }
  exists part, rest. split; auto. subst part. rewrite Hc. cbn [hd_error slot enc_ty enc_ct]. split.
  - rewrite firstn_length, wire_scalar_enc, wire_enc_length. lia.
  - assert (Hz : 0 <= z0) by lia.
    assert (Hb : s = SBool -> sc_in s z0 = true).
    { intros ->. destruct (fits_true c SBool n z0 Hn Hz Efit) as (_ & [H|H] & _); auto. simpl in H. lia. }
    pose proof (bits_of_fit c s n z0 Hn Hz Efit Hb) as Hbits.
    destruct (fits_true c s n z0 Hn Hz Efit) as (Hlt & _ & _).
    rewrite narrow_number by auto. destruct (c_wire c) eqn:Ew.
    + rewrite Hbits. split; auto.
    + assert (Hfull : sc_bits s (conv s z0) = z0).
      { assert (Hl : z0 < pow256 (ssize s)) by (pose proof (pow256_le n (ssize s) Hn); lia).
        assert (Hl' : fits_declared_width c s (ssize s) z0 = true -> sc_bits s (conv s z0) mod pow256 (ssize s) = z0)
          by (intros F; apply (bits_of_fit c); auto).
        unfold sc_bits in *. rewrite Z.mod_mod in Hl' by (pose proof (pow256_pos (ssize s)); lia). apply Hl'.
        unfold fits_declared_width in *. apply andb_true_iff in Efit. destruct Efit as [_ F]. rewrite F, andb_true_r.
        destruct (Nat.ltb (ssize s) (c_szw c)); auto. rewrite Z.shiftr_div_pow2, Z.div_small; auto; [|lia].
        rewrite pow256_2 in Hl. lia. }
      rewrite Hfull. rewrite <- Em.
      destruct (Nat.eq_dec n (ssize s)) as [->|Hne].
      * rewrite Nat.sub_diag. change (pow256 0) with 1. rewrite Z.div_1_r. tauto.
      * assert (1 < pow256 (ssize s - n)).
        { assert (pow256 1 <= pow256 (ssize s - n)) by (apply pow256_le; lia). change (pow256 1) with 256 in *. lia. }
        split.
        -- intros H1. right. right. destruct (Z.eq_dec (Z.of_nat m) 0); [lia|].
           pose proof (Z.div_lt (Z.of_nat m) (pow256 (ssize s - n))). lia.
        -- intros [H1|[H1|H1]]; [discriminate|congruence|subst m]. apply Z.div_0_l. lia.
Qed.

(** ** Discriminants *)

Lemma negative_case c fs vs pre id s n k v pre' id' s' cases al k' j v' sj mv :
  wf fs = true -> typed fs = true -> has_fields fs vs ->
  field_at fs vs pre id (FFixed (TScalar s) n) k v ->
  field_at fs vs pre' id' (FUnion (GField id s' cases) al) k' (VAlt j v') ->
  nth_error cases j = Some (sj, mv) -> - 256 ^ Z.of_nat (c_szw c) <= 2 * mv < 0 -> (n < c_szw c)%nat ->
  forall out, wmem (stream_cast c fs vs) <> (Ok tt, out).
Proof.
  intros Hw Ht Hv Hat Hat' Hc Hm Hn out Hok. fold (pow256 (c_szw c)) in Hm.
  assert (Hin : In (mv mod 256 ^ Z.of_nat (c_szw c)) (claims c id fs vs)).
  { eapply claim_in; eauto. simpl. rewrite String.eqb_refl, Hc. simpl. auto. }
  fold (pow256 (c_szw c)) in Hin.
  assert (Em : mv mod pow256 (c_szw c) = mv + pow256 (c_szw c)).
  { symmetry. apply Z.mod_unique with (-1); lia. }
  rewrite Em in Hin.
  destruct (ok_at _ _ _ _ _ _ _ _ _ Hw Ht Hv Hat Hok) as (part & rest & Hp & _).
  assert (Hcl : claims c id fs vs <> []) by (intros E; rewrite E in Hin; auto).
  destruct (derived_scalar c _ _ _ _ _ _ _ Hw Ht Hv Hat Hcl) as [_ (s0 & n' & E & Hn' & Hs0)].
  inversion E; subst s0 n'. clear E.
  destruct (derived_prog c _ _ _ _ _ _ _ _ Hw Ht Hv Hat Hcl) as (z0 & l & Hc0 & Hp').
  rewrite Hp' in Hp. clear Hp'.
  destruct (forallb (Z.eqb z0) l) eqn:Ef; [|discriminate].
  destruct (fits_declared_width c s n z0) eqn:Efit; [|discriminate].
  assert (mv + pow256 (c_szw c) = z0) as Ez.
  { rewrite Hc0 in Hin. destruct Hin as [|Hx]; auto.
    rewrite forallb_forall in Ef. symmetry. apply Z.eqb_eq. auto. }
  destruct (fits_true c s n z0 Hn' ltac:(lia) Efit) as (Hlt & _ & _).
  assert (2 * pow256 n <= pow256 (c_szw c)).
  { assert (pow256 (S n) <= pow256 (c_szw c)) by (apply pow256_le; lia).
    unfold pow256 in *. rewrite Nat2Z.inj_succ, Z.pow_succ_r in H by lia. lia. }
  lia.
Qed.

(** ** Pinned integers *)

Lemma int_of_int s y z : int_of s (VZ y) z -> z = conv s y.
Proof. intros H. inversion H. reflexivity. Qed.

Lemma pinned_exact w sg w' sg' lit : (0 < w)%nat -> (0 < w')%nat -> sc_in (SInt w' sg') lit = true ->
  (holds (CCmp OEq (SInt w' sg') lit) (VZ (conv (SInt w sg) lit)) <->
   sc_in (SInt w sg) lit = true \/ (w' <= w)%nat \/ sc_in (SInt w sg) (lit - 256 ^ Z.of_nat w') = true).
Proof.
  intros Hw Hw' Hl. fold (pow256 w').
  assert (HH : holds (CCmp OEq (SInt w' sg') lit) (VZ (conv (SInt w sg) lit)) <->
               conv (SInt w' sg') (conv (SInt w sg) lit) = lit).
  { cbn [holds]. split.
    - intros (z & I & E). cbn in E. subst z. exact (eq_sym (int_of_int _ _ _ I)).
    - intros E. exists (conv (SInt w' sg') (conv (SInt w sg) lit)). split; [constructor|exact E]. }
  rewrite HH. clear HH.
  destruct (conv_mod w sg lit) as [q Hq]. pose proof (conv_in (SInt w sg) lit) as Hin.
  set (y := conv (SInt w sg) lit) in *.
  destruct (conv_mod w' sg' y) as [q' Hq']. pose proof (conv_in (SInt w' sg') y) as Hin'.
  pose proof (pow256_pos w). pose proof (pow256_pos w').
  assert (Huniq : forall a b, sc_in (SInt w' sg') a = true -> sc_in (SInt w' sg') b = true ->
            (exists r, a = b + r * pow256 w') -> a = b).
  { intros a b Ha Hb [r Hr]. destruct sg'; cbn in Ha, Hb; assert (r = 0) by nia; subst; lia. }
  split.
  - intros E. destruct (Nat.le_gt_cases w' w) as [|Hlt]; auto.
    assert (2 * pow256 w <= pow256 w').
    { assert (pow256 (S w) <= pow256 w') by (apply pow256_le; lia).
      unfold pow256 in *. rewrite Nat2Z.inj_succ, Z.pow_succ_r in * by lia. lia. }
    rewrite E in Hq'.
    assert (q' = 0 \/ q' = 1) as [-> | ->].
    { destruct (Z.le_gt_cases q' (-1)) as [L|L].
      { pose proof (Z.mul_le_mono_nonneg_r q' (-1) (pow256 w') ltac:(lia) L).
        clear Huniq Hin' Hq E. clearbody y. destruct sg, sg'; cbn in Hl, Hin; lia. }
      destruct (Z.le_gt_cases 2 q') as [G|G]; [|lia].
      pose proof (Z.mul_le_mono_nonneg_r 2 q' (pow256 w') ltac:(lia) G).
      clear Huniq Hin' Hq E. clearbody y. destruct sg, sg'; cbn in Hl, Hin; lia. }
    + left. replace lit with y by lia. exact Hin.
    + right. right. replace (lit - pow256 w') with y by lia. exact Hin.
  - intros [H1|[H1|H1]].
    + assert (y = lit) as ->; [|apply conv_id; auto]. apply conv_id; auto.
    + apply Huniq; auto. assert (exists d, pow256 w = d * pow256 w') as [d Hd].
      { exists (pow256 (w - w')). unfold pow256. rewrite <- Z.pow_add_r by lia. f_equal. lia. }
      exists (q' + q * d). rewrite Hq', Hq, Hd. ring.
    + destruct (Nat.le_gt_cases w' w) as [Hle|Hlt].
      * apply Huniq; auto. assert (exists d, pow256 w = d * pow256 w') as [d Hd].
        { exists (pow256 (w - w')). unfold pow256. rewrite <- Z.pow_add_r by lia. f_equal. lia. }
        exists (q' + q * d). rewrite Hq', Hq, Hd. ring.
      * assert (y = lit - pow256 w') as Hy.
        { rewrite <- (conv_id _ _ H1). unfold y. apply conv_congr.
          assert (exists d, pow256 w' = d * pow256 w) as [d Hd].
          { exists (pow256 (w' - w)). unfold pow256. rewrite <- Z.pow_add_r by lia. f_equal. lia. }
          rewrite Hd. rewrite <- Z.add_opp_r, <- Z.mul_opp_l, Z_mod_plus_full. reflexivity. }
        apply Huniq; auto. exists (q' - 1). rewrite Hq', Hy. ring.
Qed.

(** ** Reading, then writing *)

Lemma rewrite_exact c fs bs vs rest : wf fs = true -> typed fs = true -> Forall byte_ok bs ->
  rmem (struct_cast c fs) bs = (Ok vs, rest) ->
  exists used, bs = used ++ rest /\
    (wmem (stream_cast c fs vs) = (Ok tt, used) <->
     writable c fs vs /\ enc_fields (c_wire c) fs (emitted c fs vs) = enc_fields (c_wire c) fs vs).
Proof.
  intros W T B R. destruct (read_sound _ _ _ _ _ W B R) as [V E]. exists (enc_fields (c_wire c) fs vs).
  split; auto. rewrite (write_ok_iff c fs vs _ W T) by (eapply (proj1 (proj2 valid_has)); exact V). intuition congruence.
Qed.
