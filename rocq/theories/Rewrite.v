(** * Writing back what was read *)
From Coq Require Import ZifyBool ZifyNat Lia.
From Verif Require Import PropDefs BytesFacts ProgFacts ReadFacts ReadLemmas ReadMore Safety ReadFinal.
From Verif Require Import WriteFacts WriteMain WriteLoc WriteErr WriteRel WriteMore WriteFinal RTrip RTrip2.

(** ** Numbers *)

Lemma conv_mod w sg z : exists q, conv (SInt w sg) z = z + q * pow256 w.
Proof.
  pose proof (pow256_pos w). pose proof (Z.div_mod z (pow256 w)). simpl. destruct sg.
  - destruct (_ <? _); [exists (- (z / pow256 w))|exists (- (z / pow256 w) - 1)]; nia.
  - exists (- (z / pow256 w)). nia.
Qed.

Lemma pow256_le a b : (a <= b)%nat -> pow256 a <= pow256 b.
Proof. intros. unfold pow256. apply Z.pow_le_mono_r; lia. Qed.

Lemma conv_inj s w sg x y : (ssize s <= w)%nat -> sc_in s x = true -> sc_in s y = true ->
  conv (SInt w sg) x = conv (SInt w sg) y -> x = y.
Proof.
  intros Hw Hx Hy H. destruct (conv_mod w sg x) as [q Hq], (conv_mod w sg y) as [r Hr].
  rewrite Hq, Hr in H. pose proof (pow256_le _ _ Hw) as Hp. pose proof (pow256_pos w).
  assert (- pow256 w < x - y < pow256 w).
  { assert (pow256 1 = 256) by reflexivity. destruct s as [w' [|]|]; simpl in *; lia. }
  assert (x - y = (r - q) * pow256 w) by lia. destruct (Z.eq_dec (r - q) 0); nia.
Qed.

Lemma promote_width a : exists w sg, promote a = SInt w sg /\ (ssize a <= w)%nat.
Proof.
  destruct a as [w sg|]; unfold promote.
  - destruct (Nat.ltb_spec w 4); eexists; eexists; (split; [reflexivity|cbn [ssize]; lia]).
  - exists 4%nat, true. split; auto.
Qed.

Lemma common_width a b : exists w sg, common a b = SInt w sg /\ (ssize a <= w)%nat.
Proof.
  unfold common. destruct (promote_width a) as (w & sg & -> & H), (promote_width b) as (w' & sg' & -> & _).
  destruct (Nat.eqb_spec w w'); [|destruct (Nat.ltb_spec w w')]; eexists; eexists; (split; [reflexivity|lia]).
Qed.

Lemma sty_eqb_eq a b : sty_eqb a b = true -> a = b.
Proof.
  destruct a as [w [|]|], b as [w' [|]|]; simpl; try discriminate; auto;
    rewrite andb_true_iff; intros [H1 H2]; try discriminate; apply Nat.eqb_eq in H1; subst; auto.
Qed.

Lemma cxx_eq_same s z s' m : sc_in s z = true -> sc_in s m = true -> cxx_eq s z s' m = true -> z = m.
Proof.
  unfold cxx_eq. intros Hz Hm H. apply Z.eqb_eq in H.
  destruct (common_width s s') as (w & sg & E & Hw). rewrite E in H. eapply conv_inj; eauto.
Qed.

Lemma zeros_dec l : Forall (fun b => b = 0) l -> le_dec l = 0.
Proof. induction 1; simpl; subst; auto; lia. Qed.

Lemma zero_tail w : forall n z, 0 <= z < pow256 w -> (n <= w)%nat ->
  Forall (fun b => b = 0) (skipn n (le_enc w z)) -> z < pow256 n.
Proof.
  induction w; intros [|n] z Hz Hn Hf; simpl in Hf; try lia.
  - assert (le_dec (le_enc (S w) z) = 0).
    { apply zeros_dec. exact Hf. }
    rewrite le_dec_enc, Z.mod_small in H by auto. rewrite pow256_0. lia.
  - rewrite pow256_S in *. pose proof (Z.div_mod z 256). pose proof (Z.mod_pos_bound z 256).
    assert (z / 256 < pow256 n); [|lia]. apply IHw; auto; try lia.
Qed.

Lemma wide_fits c s n z : (n <= ssize s)%nat -> sc_in s z = true -> 0 <= z ->
  z < pow256 (c_szw c) -> whole c s n = true ->
  representable (c_wire c) (TScalar s) n (VZ z) -> fits_declared_width c s n z = true.
Proof.
  intros Hn Hi Hz Hc Hwh Hr.
  assert (Hs : z < pow256 (ssize s)).
  { assert (pow256 1 = 256) by reflexivity. destruct s as [w [|]|]; simpl in *; lia. }
  assert (Hlt : z < pow256 n).
  { unfold whole in Hwh. destruct (c_wire c) eqn:Ew.
    - unfold representable in Hr. simpl in Hr. unfold sc_bits in Hr. rewrite le_enc_mod in Hr.
      eapply zero_tail; eauto.
    - apply Nat.eqb_eq in Hwh. subst. auto. }
  unfold fits_declared_width. apply andb_true_iff. split.
  - destruct (Nat.ltb n (c_szw c)); auto. apply Z.eqb_eq.
    rewrite Z.shiftr_div_pow2 by lia. apply Z.div_small.
    assert (2 ^ (8 * Z.of_nat n) = pow256 n) as ->; [|lia].
    unfold pow256. rewrite Z.pow_mul_r by lia. auto.
  - rewrite conv_id by auto. unfold to_size. rewrite Z.mod_small by lia. apply Z.eqb_refl.
Qed.

(** ** Validity, types, guards, field by field *)

Lemma valid_has :
  (forall t c E v, valid_ty c E t v -> has_ty t v) /\
  (forall fs c E vs, valid_fields c E fs vs -> has_fields fs vs) /\
  (forall al c E i v, valid_alts c E al i v -> has_alt al i v).
Proof.
  apply schema_mutind.
  - intros t n c E v [H _]. exact H.
  - intros elt l b c E v (xs & -> & H & _). exact H.
  - intros fs IH c E v (vs & -> & H). simpl. eauto.
  - intros n fs IH c E v (xs & -> & H1 & H). simpl. split; auto.
    eapply Forall_impl; [|exact H]. intros x (vs & -> & Hx). eauto.
  - intros fs IH recsz l b c E v (xs & -> & H & _). simpl.
    eapply Forall_impl; [|exact H]. intros x (vs & -> & Hx). eauto.
  - intros b IH p ids c E v (args & _ & H). destruct (p args).
    + destruct H as (v' & -> & H). simpl. eauto.
    + subst. simpl. auto.
  - intros g al IH c E v (i & v' & -> & _ & H). simpl. eauto.
  - intros c E [|v vs]; simpl; tauto.
  - intros id t IHt k fs IHfs c E [|v vs]; simpl; [tauto|]. intros (H1 & H2 & H3). eauto.
  - intros c E i v [].
  - intros t IHt k al IHal c E [|i] v; simpl; [intros [H H']; eauto|eauto].
Qed.

Lemma valid_fields_at c E F : forall V pre id t k v, valid_fields c E F V ->
  field_at F V pre id t k v -> valid_ty c E t v /\ holds k v.
Proof.
  intros V pre id t k v H (post & vpre & vpost & -> & -> & L). revert vpre L H.
  induction pre as [|i t0 k0 pre IH]; intros [|x vpre] L H; simpl in *; try discriminate; [tauto|].
  destruct H as (_ & _ & H). eapply IH; eauto.
Qed.

Lemma reversible_at c G F pre id t k post : F = f_app pre (FCons id t k post) ->
  reversible_in c G F = true ->
  reversible_ty c t = true /\ source_ok c G t = true /\ memb id (sources G) || pin_exact t k = true.
Proof.
  intros -> H. induction pre as [|i t0 k0 pre IH]; simpl in H; rewrite !andb_true_iff in H; [tauto|].
  apply IH. tauto.
Qed.

Lemma claims_from c id z F : forall V, In z (claims c id F V) ->
  exists pre i t k v, field_at F V pre i t k v /\ In z (claim c id t v).
Proof.
  induction F as [|i t k F IH]; intros [|v V] H; simpl in H; try tauto.
  apply in_app_or in H. destruct H as [H|H].
  - exists FNil, i, t, k, v. split; auto. exists F, [], V. auto.
  - destruct (IH _ H) as (pre & i' & t' & k' & v' & (post & vpre & vpost & -> & -> & L) & Hc).
    exists (FCons i t k pre), i', t', k', v'. split; auto. exists post, (v :: vpre), vpost.
    simpl. auto.
Qed.

Lemma cond_claims_from E id z F : forall V, In z (cond_claims E id F V) ->
  exists pre i t k v, field_at F V pre i t k v /\ In z (cond_claim E id t v).
Proof.
  induction F as [|i t k F IH]; intros [|v V] H; simpl in H; try tauto.
  apply in_app_or in H. destruct H as [H|H].
  - exists FNil, i, t, k, v. split; auto. exists F, [], V. auto.
  - destruct (IH _ H) as (pre & i' & t' & k' & v' & (post & vpre & vpost & -> & -> & L) & Hc).
    exists (FCons i t k pre), i', t', k', v'. split; auto. exists post, (v :: vpre), vpost.
    simpl. auto.
Qed.

Lemma at_field_of F V pre id t k v : NoDup (f_ids F) -> field_at F V pre id t k v ->
  field_of F id = Some (t, k).
Proof.
  intros Hn (post & vpre & vpost & -> & -> & L).
  rewrite f_ids_app in Hn. simpl in Hn. apply NoDup_remove in Hn. destruct Hn as [_ Hn].
  assert (Hi : ~ In id (f_ids pre)) by (intros H; apply Hn, in_or_app; auto). clear Hn L.
  induction pre as [|i t0 k0 pre IH]; simpl in *.
  - rewrite String.eqb_refl. auto.
  - destruct (String.eqb_spec i id); [subst; tauto|]. apply IH; auto.
Qed.

Lemma valid_nth c E al : forall i w t k, valid_alts c E al i w -> a_nth i al = Some (t, k) ->
  valid_ty c E t w.
Proof.
  induction al; intros [|i] w t' k' H En; simpl in *; try discriminate.
  - inversion En; subst. tauto.
  - eauto.
Qed.

(** ** One struct *)

Section Struct.
Variables (c : cfg) (F : fields) (V : list val).
Hypothesis Hw : wf F = true.
Hypothesis Ht : typed F = true.
Hypothesis Hval : valid c F V.
Hypothesis Hrev : reversible c F = true.

Let E := mk_env F V.

Lemma struct_has : has_fields F V.
Proof. destruct valid_has as (_ & H & _). eapply H, Hval. Qed.

Lemma sized_len id t v n : valid_ty c E t v -> sized_by id t v = Some n ->
  exists z, lookup E id = Some (VZ z) /\ Z.of_nat n = z mod pow256 (c_szw c).
Proof.
  destruct t as [|elt [i|] b| | |gs r [i|] b| |]; simpl; try discriminate.
  - intros (xs & -> & _ & (z & Hl & Hz) & _) H. destruct (String.eqb_spec i id); [|discriminate].
    subst. inversion H; subst. eauto.
  - intros (xs & -> & _ & (z & Hl & Hz) & _) H. destruct (String.eqb_spec i id); [|discriminate].
    subst. inversion H; subst. eauto.
Qed.

Lemma claim_back pre id s n k z m : field_at F V pre id (FFixed (TScalar s) n) k (VZ z) ->
  In m (claims c id F V) -> m = z /\ fits_declared_width c s n z = true /\ sc_in s z = true.
Proof.
  intros Hat Hin. pose proof struct_has as Hv.
  destruct (wf_fields_ids _ _ Hw) as [Hn _].
  pose proof (lookup_at _ _ _ _ _ _ _ Hn Hat) as Hl. fold E in Hl.
  pose proof (at_field_of _ _ _ _ _ _ _ Hn Hat) as Hf.
  destruct (valid_fields_at c E F V _ _ _ _ _ Hval Hat) as [[Hi Hr] _]. simpl in Hi.
  destruct (at_facts F V pre id _ k _ Hw Ht Hv Hat)
    as (post & vpre & vpost & E1 & E2 & L & V1 & V2 & V3 & W1 & W2 & W3 & T1 & T2 & T4 & T3 & Hx & Hm & Hs & Hl').
  simpl in W2. apply andb_true_iff in W2. destruct W2 as [_ W2]. apply Nat.leb_le in W2.
  destruct (claims_from _ _ _ _ _ Hin) as (pre' & i' & t' & k' & v' & Hat' & Hc).
  destruct (valid_fields_at c E F V _ _ _ _ _ Hval Hat') as [Hvt _].
  pose proof Hat' as Hat2. destruct Hat2 as (post' & vpre' & vpost' & E1' & _).
  destruct (reversible_at c F F _ _ _ _ _ E1' Hrev) as (_ & Hso & _).
  destruct (at_facts F V pre' i' _ k' _ Hw Ht Hv Hat')
    as (?post & ?vpre & ?vpost & _ & _ & _ & _ & _ & _ & _ & W2t & _ & _ & T2' & _ & _ & _ & _ & Hs' & _).
  assert (Hlen : forall x b, sized_by id t' v' = Some x -> m = Z.of_nat x ->
     Z.of_nat x <= ceiling_of c b -> length_ok c s n b = true ->
     m = z /\ fits_declared_width c s n z = true /\ sc_in s z = true).
  { intros x b Hsz Em Hb G. unfold length_ok in G. rewrite !andb_true_iff in G. destruct G as [[G1 G2] G3].
    apply Nat.leb_le in G2. destruct (sized_len _ _ _ _ Hvt Hsz) as (z' & Hl2 & Hz').
    rewrite Hl in Hl2. inversion Hl2; subst z'. fold (pow256 (c_szw c)) in G1.
    assert (0 <= z < pow256 (c_szw c)).
    { pose proof (pow256_le _ _ G2). assert (pow256 1 = 256) by reflexivity.
      destruct s as [w [|]|]; simpl in *; try lia. pose proof (pow256_pos (c_szw c)).
      destruct (Z.ltb_spec z 0); [|lia]. exfalso.
      assert (z mod pow256 (c_szw c) = z + pow256 (c_szw c)).
      { rewrite <- (Z.mod_small (z + pow256 (c_szw c)) (pow256 (c_szw c))) by lia.
        replace (z + pow256 (c_szw c)) with (z + 1 * pow256 (c_szw c)) by lia.
        rewrite Z.mod_add by lia. auto. }
      lia. }
    rewrite Z.mod_small in Hz' by auto. split; [congruence|]. split; auto.
    apply wide_fits; auto; lia. }
  assert (Hun : forall f, In m (map Z.of_nat (to_list f)) -> exists x, f = Some x /\ m = Z.of_nat x).
  { intros [x|]; simpl; [|tauto]. intros [<-|[]]. eauto. }
  destruct t' as [|elt [i|] b| | |gs r [i|] b| |[i s' cases| |] al]; unfold claim in Hc;
    try (apply Hun in Hc; destruct Hc as (x & Hx1 & Hx2); try (destruct v'; discriminate)).
  - assert (i = id) as ->.
    { simpl in Hx1. destruct v'; try discriminate. destruct (String.eqb_spec i id); [auto|discriminate]. }
    apply (Hlen x b); auto; [|simpl in Hso; rewrite Hf in Hso; auto].
    destruct Hvt as (xs & -> & _ & _ & Hwi). simpl in Hx1. rewrite String.eqb_refl in Hx1.
    inversion Hx1; subst x. simpl in W2t. apply andb_true_iff in W2t. destruct W2t as [W2t _].
    pose proof (csize_pos _ W2t). unfold within in Hwi. unfold ceiling_of. nia.
  - assert (i = id) as ->.
    { simpl in Hx1. destruct v'; try discriminate. destruct (String.eqb_spec i id); [auto|discriminate]. }
    apply (Hlen x b); auto; [|simpl in Hso; rewrite Hf in Hso; auto].
    destruct Hvt as (xs & -> & _ & _ & Hwi). simpl in Hx1. rewrite String.eqb_refl in Hx1.
    inversion Hx1; subst x. simpl in W2t. rewrite !andb_true_iff in W2t. destruct W2t as [[_ W2t] _].
    unfold within in Hwi. unfold ceiling_of. nia.
  - destruct Hvt as (j & w & -> & (z' & Hl2 & Hfc) & _).
    destruct (String.eqb_spec i id); [|destruct Hc]. subst i.
    rewrite Hl in Hl2. inversion Hl2; subst z'.
    simpl in Hso. rewrite Hf in Hso. apply andb_true_iff in Hso. destruct Hso as [G1 G2].
    destruct Hfc as [(sv & Hnth & Heq) _]. rewrite Hnth in Hc. simpl in Hc.
    destruct Hc as [Hc|[]]. rewrite forallb_forall in G2. specialize (G2 _ (nth_error_In _ _ Hnth)).
    rewrite !andb_true_iff in G2. destruct G2 as [[G2 G3] G4].
    assert (s' = s) as ->.
    { simpl in T2'. apply andb_true_iff in T2'. destruct T2' as [T2' _].
      destruct (tlookup (tafter [] pre') id) as [[[]| | | | | |]|] eqn:El; try discriminate.
      apply Hs' in El. rewrite Hl' in El. inversion El; subst.
      apply andb_true_iff in T2'. destruct T2' as [T2' _]. apply sty_eqb_eq; auto. }
    assert (z = snd sv) by (eapply cxx_eq_same; eauto).
    assert (0 <= z < pow256 (c_szw c)) by (unfold pow256; lia).
    fold (pow256 (c_szw c)) in Hc. rewrite Z.mod_small in Hc by lia.
    split; [congruence|]. split; auto. apply wide_fits; auto; lia.
Qed.

Lemma cond_back id z m : lookup E id = Some (VZ z) -> In m (cond_claims E id F V) -> m = to_size c z.
Proof.
  intros Hl Hin. destruct (cond_claims_from _ _ _ _ _ Hin) as (pre' & i' & t' & k' & v' & Hat' & Hc).
  destruct (valid_fields_at c E F V _ _ _ _ _ Hval Hat') as [Hvt _].
  assert (Hun : forall f, In m (map Z.of_nat (to_list f)) -> exists x, f = Some x /\ m = Z.of_nat x).
  { intros [x|]; simpl; [|tauto]. intros [<-|[]]. eauto. }
  assert (Hs : forall t v, valid_ty c E t v -> In m (map Z.of_nat (to_list (sized_by id t v))) -> m = to_size c z).
  { intros t v H1 H2. apply Hun in H2. destruct H2 as (x & H2 & ->).
    destruct (sized_len _ _ _ _ H1 H2) as (z' & H3 & H4). rewrite Hl in H3. inversion H3; subst. auto. }
  destruct t' as [| | | | |b p ids|g al]; try (destruct Hc; fail).
  - destruct Hvt as (args & Ha & H). simpl in Hc. rewrite Ha in Hc. destruct v'; try (destruct Hc; fail).
    destruct (p args); [|destruct Hc]. destruct H as (v'' & Ev & H). inversion Ev; subst. eauto.
  - destruct Hvt as (i & w & -> & _ & H). simpl in Hc.
    destruct (a_nth i al) as [[t' k0]|] eqn:En; [|destruct Hc].
    apply (Hs t' w); auto. eapply valid_nth; eauto.
Qed.

Lemma equal_no_float t : has_float t = false -> forall v w, ct_ok t v -> equal_values v w -> v = w.
Proof.
  induction t; intros Hf v w' Hv He; destruct v; simpl in Hv; try contradiction;
    inversion He as [|? ? ? Q|? m0 E0]; subst; auto; try discriminate.
  - f_equal. destruct Hv as [_ Hv]. clear He.
    induction E0 as [|x y l m Hx E0 IH]; auto. inversion Hv; subst. f_equal; auto.
  - f_equal. destruct Hv as [_ Hv]. clear He.
    induction E0 as [|x y l m Hx E0 IH]; auto. inversion Hv as [|? ? (z & -> & _) Hv']; subst.
    inversion Hx; subst. f_equal; auto.
Qed.

Lemma pin_back t n k v w : ct_ok t v -> holds k v -> constr_ok (FFixed t n) k = true ->
  pin_exact (FFixed t n) k = true -> pinned t k = Some w -> w = v.
Proof.
  destruct t as [s|m t|m|u], k as [|o s' lit| |neg lit|neg lit| | | |]; simpl; try discriminate; intros Hv Hh Hk Hp H.
  - destruct o; try discriminate. inversion H; subst. destruct Hh as (z & Hi & Hh). destruct v; try tauto. inversion Hi; subst. simpl in Hh.
    destruct s' as [w' sg|]; [|discriminate]. apply andb_true_iff in Hp. destruct Hp as [P1 P2].
    apply Nat.leb_le in P2. rewrite conv_id by auto. f_equal.
    rewrite <- (conv_id (SInt w' sg) lit Hk) in Hh. symmetry. eapply conv_inj; eauto.
  - destruct neg; [discriminate|]. inversion H; subst. destruct Hh as [_ Hh].
    symmetry. apply (equal_no_float (TArr m t)); auto. apply Bool.negb_true_iff in Hp. exact Hp.
  - destruct neg; [discriminate|]. inversion H; subst. destruct Hh as (a & x & y & -> & Ha & Hy & ->).
    destruct Hv as [Hlen _]. rewrite map_length in Hlen. f_equal. f_equal.
    unfold str_ok in Hk. rewrite !andb_true_iff in Hk. destruct Hk as [[K1 _] K3].
    apply Nat.eqb_eq in K1. apply Z.eqb_eq in K3.
    destruct (exists_last (l := lit)) as (l' & z & El); [intros ->; discriminate|]. subst lit.
    rewrite last_last in K3. subst z. rewrite removelast_last in Hp. rewrite app_length in K1. simpl in K1.
    destruct Hy as [_ (r & Er)]. destruct Ha as [Hn (r' & ->)].
    assert (Hl' : ~ In 0 l').
    { intros Hi. rewrite forallb_forall in Hp. specialize (Hp _ Hi). discriminate. }
    assert (l' = y).
    { clear -Er Hl' Hn. revert l' Er Hl'. induction y as [|b y IH]; intros [|b' l'] Er Hl'; simpl in *; auto.
      - inversion Er; subst. tauto.
      - inversion Er; subst. tauto.
      - inversion Er; subst. f_equal. apply IH; auto. }
    subst l'. rewrite app_length in Hlen. simpl in Hlen. destruct r'; [auto|simpl in Hlen; lia].
  - destruct o; discriminate.
Qed.

Lemma slot_back pre id t k v : field_at F V pre id t k v ->
  slot (hd_error (claims c id F V)) k t v = v.
Proof.
  intros Hat. pose proof struct_has as Hv. destruct t as [t n| | | | | |]; auto.
  destruct (valid_fields_at c E F V _ _ _ _ _ Hval Hat) as [[Hi Hr] Hh].
  destruct (at_facts F V pre id _ k _ Hw Ht Hv Hat)
    as (post & vpre & vpost & E1 & E2 & L & V1 & V2 & V3 & W1 & W2 & W3 & T1 & T2 & T4 & T3 & Hx & Hm & Hs & Hl').
  destruct (claims c id F V) as [|m l] eqn:Ec.
  - cbn [hd_error]. assert (slot None k (FFixed t n) v = match pinned t k with Some w => w | None => v end) as ->.
    { simpl. destruct t; auto. }
    destruct (pinned t k) as [w|] eqn:Ep; auto.
    destruct (reversible_at c F F _ _ _ _ _ E1 Hrev) as (_ & _ & Hp).
    assert (memb id (sources F) = false) as Hms.
    { rewrite <- is_derived_sources. destruct (is_derived F id) eqn:Ed; auto.
      apply (x_derived _ _ Hx c) in Ed. congruence. }
    rewrite Hms in Hp. simpl in Hp. eapply pin_back; eauto.
  - assert (Hcl : claims c id F V <> []) by congruence.
    destruct (derived_scalar c _ _ _ _ _ _ _ Hw Ht Hv Hat Hcl) as [_ (s & n' & E0 & _)].
    inversion E0; subst t n'. destruct v as [z| | | | | |]; simpl in Hi; try tauto.
    destruct (claim_back _ _ _ _ _ _ m Hat) as (-> & _ & _); [rewrite Ec; left; auto|].
    simpl. rewrite conv_id; auto.
Qed.

Lemma wcheck_ok k v : holds k v -> wmem (wcheck k v) = (Ok tt, []).
Proof. intros H. apply check_holds in H. unfold wcheck. rewrite H. auto. Qed.

Lemma fixed_back pre id t n k v : field_at F V pre id (FFixed t n) k v ->
  exists o, wmem (field_prog c F V id (FFixed t n) k v) = (Ok tt, o).
Proof.
  intros Hat. pose proof struct_has as Hv.
  destruct (valid_fields_at c E F V _ _ _ _ _ Hval Hat) as [[Hi Hr] Hh].
  destruct (wf_fields_ids _ _ Hw) as [Hn _].
  pose proof (lookup_at _ _ _ _ _ _ _ Hn Hat) as Hl. fold E in Hl.
  destruct (at_facts F V pre id _ k _ Hw Ht Hv Hat)
    as (post & vpre & vpost & E1 & E2 & L & V1 & V2 & V3 & W1 & W2 & W3 & T1 & T2 & T4 & T3 & Hx & Hm & Hs & Hl').
  simpl in W2. apply andb_true_iff in W2. destruct W2 as [W2 W2'].
  assert (Hnn : match t with TScalar _ | TFloat _ => (n <= csize t)%nat | _ => n = csize t end) by (destruct t; lia).
  pose proof (slot_back _ _ _ _ _ Hat) as Hsl.
  assert (Hvw : exists o, wmem (verify_then_write c F V id t n v) = (Ok tt, o)).
  { destruct (has_cond_obligation F id) eqn:Eo.
    - destruct (x_scalar _ _ Hx id) as (s & n' & E0); [rewrite Eo; apply orb_true_r|].
      rewrite Hl' in E0. inversion E0; subst t n'. destruct v as [z| | | | | |]; simpl in Hi; try tauto.
      rewrite verify_then_write_cases by auto.
      assert (forallb (fun m => m =? to_size c z) (cond_claims (mk_env F V) id F V) = true) as ->.
      { apply forallb_forall. intros m Hin. apply Z.eqb_eq. eapply cond_back; eauto. }
      rewrite write_const_ok; eauto.
    - unfold verify_then_write. rewrite Eo. rewrite write_const_ok; eauto. }
  destruct (claims c id F V) as [|m l] eqn:Ec.
  - assert (Hd : is_derived F id = false).
    { destruct (is_derived F id) eqn:Ed; auto. apply (x_derived _ _ Hx c) in Ed. congruence. }
    unfold field_prog. cbn [write_ty]. unfold write_fixed. rewrite Hd. simpl orb. unfold is_frozen.
    rewrite frozen_pinned. cbn [hd_error] in Hsl.
    assert (slot None k (FFixed t n) v = match pinned t k with Some w => w | None => v end) as Hsl'.
    { simpl. destruct t; auto. }
    rewrite Hsl' in Hsl. destruct (pinned t k) as [w|].
    + subst w. simpl. auto.
    + simpl andb. cbn iota. destruct Hvw as [o Ho]. exists o. apply wmem_bind_ok. exists tt, [], o.
      split; [apply wcheck_ok; auto|]. auto.
  - assert (Hcl : claims c id F V <> []) by congruence.
    destruct (derived_scalar c _ _ _ _ _ _ _ Hw Ht Hv Hat Hcl) as [_ (s & n' & E0 & _)].
    inversion E0; subst t n'. destruct v as [z| | | | | |]; simpl in Hi; try tauto.
    destruct (derived_prog c _ _ _ _ _ _ _ _ Hw Ht Hv Hat Hcl) as (z0 & l0 & Hc0 & ->).
    assert (Hall : forall x, In x (z0 :: l0) -> x = z).
    { intros x Hin. rewrite <- Hc0 in Hin. destruct (claim_back _ _ _ _ _ _ x Hat) as (? & _); auto. }
    destruct (claim_back _ _ _ _ _ _ z0 Hat) as (-> & Hfit & _); [rewrite Hc0; left; auto|].
    assert (forallb (Z.eqb z) l0 = true) as ->.
    { apply forallb_forall. intros x Hin. apply Z.eqb_eq. symmetry. apply Hall. right; auto. }
    rewrite Hfit. rewrite conv_id by auto. destruct Hvw as [o Ho]. exists o.
    apply wmem_bind_ok. exists tt, [], o. split; [apply wcheck_ok; auto|]. auto.
Qed.

End Struct.

(** ** What goes out is what was read *)

Lemma emit_records c gs xs :
  (forall vs, valid c gs vs -> emitted c gs vs = vs) ->
  Forall (fun x => exists vs, x = VRec vs /\ valid_fields c (mk_env gs vs) gs vs) xs ->
  map (fun x => match x with VRec vs => VRec (emitted c gs vs) | _ => x end) xs = xs.
Proof.
  intros IH. induction 1 as [|x l (vs & -> & Hx) H IHl]; simpl; auto. rewrite IH, IHl; auto.
Qed.

Definition kept (c : cfg) (F : fields) (V : list val) (id : ident) (t : fty) (k : constr) (v : val) : Prop :=
  slot (hd_error (claims c id F V)) k t v = v.

Lemma kept_all c F V : wf F = true -> typed F = true -> valid c F V -> reversible c F = true ->
  each (kept c F V) F V.
Proof. intros. apply each_at. intros. eapply slot_back; eauto. Qed.

Lemma emit_back c :
  (forall t G seen E v, wf_ty seen t = true -> typed_ty G t = true -> reversible_ty c t = true ->
     valid_ty c E t v -> emit_ty c t v = v) /\
  (forall gs G seen E R F V ws, wf_fields seen gs = true -> typed_fields G gs = true ->
     reversible_in c R gs = true -> valid_fields c E gs ws -> each (kept c F V) gs ws ->
     emit_fields c (fun id => hd_error (claims c id F V)) gs ws = ws) /\
  (forall al G seen E i v, wf_alts seen al = true -> typed_alts G al = true ->
     reversible_alts c al = true -> valid_alts c E al i v -> emit_alts c al i v = v).
Proof.
  assert (Hrec : forall gs, (forall G seen E R F V ws, wf_fields seen gs = true -> typed_fields G gs = true ->
     reversible_in c R gs = true -> valid_fields c E gs ws -> each (kept c F V) gs ws ->
     emit_fields c (fun id => hd_error (claims c id F V)) gs ws = ws) ->
     wf_fields [] gs = true -> typed_fields [] gs = true -> reversible_in c gs gs = true ->
     forall vs, valid c gs vs -> emitted c gs vs = vs).
  { intros gs IH Hw Ht Hr vs Hv. unfold emitted. eapply IH; eauto. apply kept_all; auto. }
  apply schema_mutind.
  - intros t n G seen E v _ _ _ _. destruct v; auto.
  - intros elt l b G seen E v _ _ _ _. destruct v; auto.
  - intros gs IH G seen E v Hw Ht Hr (vs & -> & Hv). cbn [wf_ty typed_ty reversible_ty emit_ty] in *.
    f_equal. apply (Hrec gs IH Hw Ht Hr vs Hv).
  - intros n gs IH G seen E v Hw Ht Hr (xs & -> & _ & Hv). cbn [wf_ty typed_ty reversible_ty emit_ty] in *.
    f_equal. apply emit_records; auto.
  - intros gs IH r l b G seen E v Hw Ht Hr (xs & -> & Hv & _). cbn [wf_ty typed_ty reversible_ty emit_ty] in *.
    rewrite !andb_true_iff in *. f_equal. apply emit_records; auto. apply Hrec; tauto.
  - intros b IH p ids G seen E v Hw Ht Hr (args & _ & Hv). cbn [wf_ty typed_ty reversible_ty] in *.
    rewrite andb_true_iff in *. destruct (p args).
    + destruct Hv as (v' & -> & Hv). simpl. f_equal. apply (IH G seen E v'); tauto.
    + subst. auto.
  - intros g al IH G seen E v Hw Ht Hr (i & w & -> & _ & Hv). cbn [wf_ty typed_ty reversible_ty] in *.
    rewrite andb_true_iff in *. simpl. f_equal. apply (IH G seen E i w); tauto.
  - intros G seen E R F V [|w ws] _ _ _ Hv _; simpl in *; tauto.
  - intros id t IHt k gs IHgs G seen E R F V [|w ws] Hw Ht Hr Hv Hk; simpl in Hv; try tauto.
    cbn [wf_fields typed_fields reversible_in emit_fields each] in *. rewrite !andb_true_iff in *.
    destruct Hk as [Hk1 Hk2]. f_equal.
    + rewrite (IHt G seen E); try tauto.
    + apply (IHgs ((id, t) :: G) (id :: seen) E R F V ws); tauto.
  - intros G seen E i v _ _ _ [].
  - intros t IHt k al IHal G seen E i v Hw Ht Hr Hv.
    cbn [wf_alts typed_alts reversible_alts emit_alts valid_alts] in *. rewrite !andb_true_iff in *.
    destruct i; [apply (IHt G seen E v)|apply (IHal G seen E i v)]; tauto.
Qed.

(** ** The write succeeds *)

Lemma wfor_all_ok {E A} (f : A -> wprog E unit) l :
  Forall (fun x => exists o, wmem (f x) = (Ok tt, o)) l -> exists o, wmem (wfor l f) = (Ok tt, o).
Proof.
  induction 1 as [|x l [o Ho] H [o' IH]]; simpl; eauto. exists (o ++ o'). apply wmem_bind_ok. eauto 8.
Qed.

Lemma maperr_ok {E E' A} (g : E -> E') (p : wprog E A) a o : wmem p = (Ok a, o) ->
  wmem (wmaperr g p) = (Ok a, o).
Proof. intros H. rewrite wmem_maperr, H. auto. Qed.

Definition write_ok (c : cfg) (F : fields) (V : list val) (id : ident) (t : fty) (k : constr) (v : val) : Prop :=
  match t with
  | FFixed _ _ => exists o, wmem (field_prog c F V id t k v) = (Ok tt, o)
  | _ => is_derived F id || has_cond_obligation F id = false /\ holds k v
  end.

Lemma write_ok_all c F V : wf F = true -> typed F = true -> valid c F V -> reversible c F = true ->
  each (write_ok c F V) F V.
Proof.
  intros Hw Ht Hv Hr. pose proof (struct_has c F V Hv) as Hh. apply each_at. intros pre id t k v Hat.
  destruct (valid_fields_at c _ F V _ _ _ _ _ Hv Hat) as [Hvt Hk].
  destruct (at_facts F V pre id _ k _ Hw Ht Hh Hat)
    as (post & vpre & vpost & E1 & E2 & L & V1 & V2 & V3 & W1 & W2 & W3 & T1 & T2 & T4 & T3 & Hx & Hm & Hs & Hl').
  destruct t as [t n| | | | | |]; [eapply fixed_back; eauto|..];
    (split; auto;
     match goal with |- ?b = false => destruct b eqn:Eb; auto end;
     destruct (x_scalar _ _ Hx id Eb) as (s & n' & E0); rewrite Hl' in E0; discriminate).
Qed.

Lemma verify_len_valid c E l n : len_is c E l n -> wmem (verify_len c E l (Z.of_nat n)) = (Ok tt, []).
Proof.
  intros H. apply deduce_len_complete in H. unfold verify_len. destruct l; auto. rewrite H.
  rewrite Z.eqb_refl. auto.
Qed.

Lemma write_back c :
  (forall t G seen F V id mem k v, wf_ty seen t = true -> typed_ty G t = true -> reversible_ty c t = true ->
     is_derived F id || has_cond_obligation F id = false -> (forall t' n, t = FFixed t' n -> mem = false) ->
     valid_ty c (mk_env F V) t v -> exists o, wmem (write_ty c F V id mem k t v) = (Ok tt, o)) /\
  (forall gs G seen R F V ws, wf_fields seen gs = true -> typed_fields G gs = true ->
     reversible_in c R gs = true -> valid_fields c (mk_env F V) gs ws -> each (write_ok c F V) gs ws ->
     exists o, wmem (write_fields c F V gs ws) = (Ok tt, o)) /\
  (forall al G seen F V id i v, wf_alts seen al = true -> typed_alts G al = true ->
     reversible_alts c al = true -> is_derived F id || has_cond_obligation F id = false ->
     valid_alts c (mk_env F V) al i v -> exists o, wmem (write_alts c F V id al i v) = (Ok tt, o)).
Proof.
  assert (Hrec : forall gs, (forall G seen R F V ws, wf_fields seen gs = true -> typed_fields G gs = true ->
     reversible_in c R gs = true -> valid_fields c (mk_env F V) gs ws -> each (write_ok c F V) gs ws ->
     exists o, wmem (write_fields c F V gs ws) = (Ok tt, o)) ->
     wf_fields [] gs = true -> typed_fields [] gs = true -> reversible_in c gs gs = true ->
     forall vs, valid c gs vs -> exists o, wmem (wmaperr fst (write_fields c gs vs gs vs)) = (Ok tt, o)).
  { intros gs IH Hw Ht Hr vs Hv. destruct (IH [] [] gs gs vs vs) as [o Ho]; auto.
    - apply write_ok_all; auto.
    - exists o. apply maperr_ok. auto. }
  apply schema_mutind.
  - intros t n G seen F V id mem k v Hw Ht Hr Hd Hm [Hv _]. rewrite (Hm t n eq_refl).
    cbn [write_ty wf_ty] in *. apply orb_false_iff in Hd. destruct Hd as [D1 D2].
    unfold write_fixed, verify_then_write. rewrite D1, D2. simpl andb. cbn iota.
    apply andb_true_iff in Hw. destruct Hw as [W1 W2]. rewrite write_const_ok; eauto. destruct t; lia.
  - intros elt l b G seen F V id mem k v Hw Ht Hr Hd Hm (xs & -> & Hv & Hl & _).
    cbn [write_ty wf_ty] in *. apply andb_true_iff in Hw. destruct Hw as [W1 W2].
    eexists. apply wmem_bind_ok. exists tt. eexists. eexists.
    split; [apply verify_len_valid; auto|]. split; [apply write_var_ok; auto|reflexivity].
  - intros gs IH G seen F V id mem k v Hw Ht Hr Hd Hm (vs & -> & Hv).
    cbn [wf_ty typed_ty reversible_ty write_ty] in *. apply (Hrec gs IH Hw Ht Hr vs Hv).
  - intros n gs IH G seen F V id mem k v Hw Ht Hr Hd Hm (xs & -> & Hn & Hv).
    cbn [wf_ty typed_ty reversible_ty write_ty] in *. rewrite Hn, Nat.eqb_refl. apply wfor_all_ok.
    eapply Forall_impl; [|exact Hv]. intros x (vs & -> & Hx). apply (Hrec gs IH Hw Ht Hr vs Hx).
  - intros gs IH r l b G seen F V id mem k v Hw Ht Hr Hd Hm (xs & -> & Hv & Hl & _).
    cbn [wf_ty typed_ty reversible_ty write_ty] in *. rewrite !andb_true_iff in *.
    destruct Hw as [[W1 W2] W3]. destruct Ht as [T1 T2].
    destruct (wfor_all_ok (fun x => match x with
                                    | VRec ws => wmaperr fst (write_fields c gs ws gs ws)
                                    | _ => WStuck
                                    end) xs) as [o Ho].
    { eapply Forall_impl; [|exact Hv]. intros x (vs & -> & Hx). apply (Hrec gs IH W1 T1 Hr vs Hx). }
    exists o. apply wmem_bind_ok. exists tt, [], o. split; [apply verify_len_valid; auto|]. auto.
  - intros b IH p ids G seen F V id mem k v Hw Ht Hr Hd Hm (args & Ha & Hv).
    cbn [wf_ty typed_ty reversible_ty write_ty] in *. rewrite andb_true_iff in *. rewrite Ha.
    destruct (p args).
    + destruct Hv as (v' & -> & Hv). apply (IH G seen F V id false CNone v'); tauto.
    + subst. simpl. eauto.
  - intros g al IH G seen F V id mem k v Hw Ht Hr Hd Hm (i & w & -> & Hs & Hv).
    cbn [wf_ty typed_ty reversible_ty write_ty] in *. rewrite andb_true_iff in *.
    assert (Ho : exists o, wmem (write_alts c F V id al i w) = (Ok tt, o)) by (apply (IH G seen F V id i w); tauto).
    apply deduce_type_iff in Hs. destruct g; auto; rewrite Hs, Nat.eqb_refl; auto.
  - intros G seen R F V [|w ws] _ _ _ Hv _; simpl in *; try tauto. eauto.
  - intros id t IHt k gs IHgs G seen R F V [|w ws] Hw Ht Hr Hv Hk; simpl in Hv; try tauto.
    cbn [wf_fields typed_fields reversible_in write_fields each] in *. rewrite !andb_true_iff in *.
    destruct Hk as [Hk1 Hk2].
    destruct (IHgs ((id, t) :: G) (id :: seen) R F V ws) as [o2 Ho2]; try tauto.
    assert (Ho1 : exists o, wmem (field_prog c F V id t k w) = (Ok tt, o)).
    { destruct t as [t n| | | | | |]; [exact Hk1|..];
        (destruct Hk1 as [Hd Hh]; unfold field_prog;
         match goal with |- context [write_ty c F V id true k ?t w] =>
           destruct (IHt G seen F V id true k w) as [o Ho]; try tauto; try discriminate end;
         pose proof Hd as Hd'; apply orb_false_iff in Hd'; destruct Hd' as [-> _];
         exists o; apply wmem_bind_ok; exists tt, [], o; split; auto; apply (wcheck_ok k w Hh)). }
    destruct Ho1 as [o1 Ho1]. exists (o1 ++ o2). apply wmem_bind_ok. exists tt, o1, o2.
    split; auto. apply maperr_ok. exact Ho1.
  - intros G seen F V id i v _ _ _ _ [].
  - intros t IHt k al IHal G seen F V id i v Hw Ht Hr Hd Hv.
    cbn [wf_alts typed_alts reversible_alts write_alts valid_alts] in *. rewrite !andb_true_iff in *.
    destruct i; [|apply (IHal G seen F V id i v); tauto].
    destruct (IHt G seen F V id false k v) as [o Ho]; try tauto.
    exists o. apply wmem_bind_ok. exists tt, [], o. split; [apply wcheck_ok; tauto|]. auto.
Qed.

Lemma rewrite_valid c fs vs : wf fs = true -> typed fs = true -> reversible c fs = true ->
  valid c fs vs -> wmem (stream_cast c fs vs) = (Ok tt, enc_fields (c_wire c) fs vs).
Proof.
  intros Hw Ht Hr Hv. destruct (write_back c) as (_ & Hf & _).
  destruct (Hf fs [] [] fs fs vs vs) as [o Ho]; auto.
  { apply write_ok_all; auto. }
  fold (stream_cast c fs vs) in Ho. rewrite Ho.
  rewrite (write_encodes c fs vs o Hw Ht (struct_has c fs vs Hv) Ho).
  destruct (emit_back c) as (_ & He & _). unfold emitted.
  rewrite (He fs [] [] (mk_env fs vs) fs fs vs vs); auto. apply kept_all; auto.
Qed.

Lemma read_then_write c fs bs vs rest : wf fs = true -> typed fs = true -> reversible c fs = true ->
  Forall byte_ok bs -> rmem (struct_cast c fs) bs = (Ok vs, rest) ->
  exists used, bs = used ++ rest /\ wmem (stream_cast c fs vs) = (Ok tt, used).
Proof.
  intros Hw Ht Hr Hb H. destruct (read_sound c fs bs vs rest Hw Hb H) as [Hv E].
  exists (enc_fields (c_wire c) fs vs). split; auto. apply rewrite_valid; auto.
Qed.
