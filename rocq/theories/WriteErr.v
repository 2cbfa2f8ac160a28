(** Errors of a write, field kind by field kind. *)
From Coq Require Import ZifyBool ZifyNat.
From Verif Require Import Read Write WSpec Typing PropDefs BytesFacts ProgFacts ReadFacts ReadMore Safety.
From Verif Require Import ReadLemmas LayoutFacts WriteFacts WriteMain WriteLoc.

(** ** From the outcome of the cast back to the field *)

Lemma nodup_at fs vs pre id t k v : wf fs = true -> field_at fs vs pre id t k v ->
  exists post, fs = f_app pre (FCons id t k post) /\ ~ In id (f_ids pre) /\ ~ In id (f_ids post).
Proof.
  intros Hw (post & vpre & vpost & E & _). exists post. split; auto.
  destruct (wf_fields_ids _ _ Hw) as [Hn _]. rewrite E, f_ids_app in Hn. simpl in Hn.
  apply NoDup_remove in Hn. rewrite in_app_iff in Hn. tauto.
Qed.

Lemma err_at c fs vs pre id t k v r out : wf fs = true -> typed fs = true ->
  has_fields fs vs -> field_at fs vs pre id t k v ->
  wmem (stream_cast c fs vs) = (Err (r, id), out) ->
  exists part, wmem (field_prog c fs vs id t k v) = (Err r, part) /\
               out = bytes_before c pre (emitted c fs vs) ++ part.
Proof.
  intros Hw Ht Hv Hat Hr.
  destruct (nodup_at _ _ _ _ _ _ _ Hw Hat) as (post0 & E0 & N1 & N2).
  destruct (split_cast c fs vs pre id t k v Hw Ht Hv Hat True (or_intror I))
    as (post & vpre & vpost & E1 & E2 & L & Hc & G1 & G2 & G3).
  assert (post = post0) as ->.
  { rewrite E1 in E0. clear - E0. induction pre; simpl in E0; inversion E0; auto. }
  rewrite Hc, wmem_bind in Hr. destruct (write_wok c) as (_ & Wf & _).
  pose proof (Wf pre fs vs vpre) as Wp. pose proof (Wf post0 fs vs vpost) as Wq.
  destruct (wmem (write_fields c fs vs pre vpre)) as [[[]|[r' id']| | |] o1] eqn:Ep; try discriminate Hr.
  - unfold good in G1. simpl in G1. subst o1.
    rewrite wmem_bind, wmem_maperr in Hr.
    destruct (wmem (field_prog c fs vs id t k v)) as [[[]|r'| | |] o2] eqn:Ef; try discriminate Hr.
    + destruct (wmem (write_fields c fs vs post0 vpost)) as [o o3] eqn:Eq. inversion Hr; subst.
      apply (wmem_err _ _ _ Wq) in Eq. simpl in Eq. tauto.
    + inversion Hr; subst. eauto.
  - inversion Hr; subst. apply (wmem_err _ _ _ Wp) in Ep. simpl in Ep. tauto.
Qed.

Lemma ok_at c fs vs pre id t k v out : wf fs = true -> typed fs = true ->
  has_fields fs vs -> field_at fs vs pre id t k v ->
  wmem (stream_cast c fs vs) = (Ok tt, out) ->
  exists part rest, wmem (field_prog c fs vs id t k v) = (Ok tt, part) /\
    part = enc_ty (c_wire c) t (slot (hd_error (claims c id fs vs)) k t (emit_ty c t v)) /\
    out = bytes_before c pre (emitted c fs vs) ++ part ++ rest.
Proof.
  intros Hw Ht Hv Hat Hr.
  destruct (split_cast c fs vs pre id t k v Hw Ht Hv Hat True (or_intror I))
    as (post & vpre & vpost & E1 & E2 & L & Hc & G1 & G2 & G3).
  rewrite Hc in Hr. apply wmem_bind_ok in Hr. destruct Hr as ([] & o1 & o2 & R1 & R2 & ->).
  apply wmem_bind_ok in R2. destruct R2 as ([] & o3 & o4 & R2 & R3 & ->).
  apply wmem_maperr_ok in R2. rewrite R1 in G1. rewrite R2 in G2. unfold good in *. simpl in *. subst.
  eauto.
Qed.

(** ** Derived fields *)

Lemma derived_scalar c fs vs pre id t k v : wf fs = true -> typed fs = true ->
  has_fields fs vs -> field_at fs vs pre id t k v -> claims c id fs vs <> [] ->
  is_derived fs id = true /\ exists s n, t = FFixed (TScalar s) n /\ (n <= ssize s)%nat /\ (0 < ssize s)%nat.
Proof.
  intros Hw Ht Hv Hat Hcl.
  destruct (at_facts fs vs pre id t k v Hw Ht Hv Hat)
    as (post & vpre & vpost & E1 & E2 & L & V1 & V2 & V3 & W1 & W2 & W3 & T1 & T2 & T4 & T3 & Hx & Hm & Hs & Hl).
  assert (Hd : is_derived fs id = true) by (apply (x_derived _ _ Hx c); auto).
  split; auto. destruct (x_scalar _ _ Hx id) as (s & n & Hl'); [rewrite Hd; auto|].
  rewrite Hl in Hl'. inversion Hl'; subst. exists s, n. split; auto.
  simpl in W2. rewrite andb_true_iff in W2. lia.
Qed.

Lemma derived_prog c fs vs pre id k v s n : wf fs = true -> typed fs = true ->
  has_fields fs vs -> field_at fs vs pre id (FFixed (TScalar s) n) k v -> claims c id fs vs <> [] ->
  exists z l, claims c id fs vs = z :: l /\
  field_prog c fs vs id (FFixed (TScalar s) n) k v =
  if forallb (Z.eqb z) l then
    if fits_declared_width c s n z then
      wbind (wcheck k (VZ (conv s z))) (fun _ => verify_then_write c fs vs id (TScalar s) n (VZ (conv s z)))
    else WErr ValidationFailure
  else WErr FoundContradictingLength.
Proof.
  intros Hw Ht Hv Hat Hcl.
  destruct (derived_scalar c _ _ _ _ _ _ _ Hw Ht Hv Hat Hcl) as [Hd _].
  destruct (wctx_intro fs vs Hw Ht Hv) as [Hx _].
  destruct (claims c id fs vs) as [|z l] eqn:Ec; [congruence|]. exists z, l. split; auto.
  unfold field_prog. rewrite Hd. simpl orb. cbn [wbind write_ty]. unfold write_fixed. rewrite Hd.
  unfold derive_value. rewrite (x_fold _ _ Hx), Ec.
  cbn [fold_left]. change (record (mkD 0 false true) z) with (mkD z true true).
  destruct (record_agreed l z) as [R1 R2].
  destruct (d_agreed _) eqn:Ea; cbn [negb].
  - assert (Hf : Forall (eq z) l) by (apply R1; auto).
    assert (forallb (Z.eqb z) l = true) as ->.
    { apply forallb_forall. intros x Hin. rewrite Forall_forall in Hf. apply Z.eqb_eq. auto. }
    rewrite R2 by auto. destruct (fits_declared_width c s n z); auto.
  - destruct (forallb (Z.eqb z) l) eqn:Ef; auto. exfalso.
    assert (Hf : Forall (eq z) l).
    { apply Forall_forall. intros x Hin. rewrite forallb_forall in Ef. apply Z.eqb_eq. auto. }
    apply R1 in Hf. congruence.
Qed.

Lemma contradicting c fs vs pre id t k v z1 z2 : wf fs = true -> typed fs = true ->
  has_fields fs vs -> field_at fs vs pre id t k v ->
  In z1 (claims c id fs vs) -> In z2 (claims c id fs vs) -> z1 <> z2 ->
  fails_with c fs vs pre id FoundContradictingLength [].
Proof.
  intros Hw Ht Hv Hat H1 H2 Hne.
  assert (Hcl : claims c id fs vs <> []) by (intros E; rewrite E in H1; auto).
  destruct (derived_scalar c _ _ _ _ _ _ _ Hw Ht Hv Hat Hcl) as [_ (s & n & -> & _)].
  destruct (derived_prog c _ _ _ _ _ _ _ _ Hw Ht Hv Hat Hcl) as (z & l & Hc & Hp).
  eapply field_fails; eauto. rewrite Hp.
  destruct (forallb (Z.eqb z) l) eqn:Ef; auto. exfalso. apply Hne.
  assert (Hall : forall x, In x (claims c id fs vs) -> z = x).
  { intros x Hx. rewrite Hc in Hx. destruct Hx as [|Hx]; auto.
    rewrite forallb_forall in Ef. apply Z.eqb_eq. auto. }
  rewrite <- (Hall _ H1), <- (Hall _ H2). auto.
Qed.

Lemma pow256_le a b : (a <= b)%nat -> pow256 a <= pow256 b.
Proof. intros H. unfold pow256. apply Z.pow_le_mono_r; lia. Qed.

Lemma fits_false c s n z : (n <= ssize s)%nat -> 0 <= z ->
  (pow256 n <= z \/ (sc_in s z = false /\ (ssize s < c_szw c)%nat)) ->
  fits_declared_width c s n z = false.
Proof.
  intros Hn Hz H. unfold fits_declared_width. apply andb_false_iff.
  pose proof (pow256_pos n) as Pn. pose proof (pow256_pos (ssize s)) as Ps.
  pose proof (pow256_pos (c_szw c)) as Pc.
  assert (Hsh : (if Nat.ltb n (c_szw c) then Z.shiftr z (8 * Z.of_nat n) =? 0 else true) = true ->
                pow256 n <= z -> (c_szw c <= n)%nat).
  { destruct (Nat.ltb_spec n (c_szw c)); [|lia]. intros E Hle. exfalso.
    apply Z.eqb_eq in E. rewrite Z.shiftr_div_pow2 in E by lia.
    assert (Ep : 2 ^ (8 * Z.of_nat n) = pow256 n).
    { unfold pow256. rewrite Z.pow_mul_r by lia. auto. }
    rewrite Ep in E. assert (1 <= z / pow256 n) by (apply Z.div_le_lower_bound; lia). lia. }
  destruct (if Nat.ltb n (c_szw c) then _ else _) eqn:Esh; [right|left; auto].
  apply Z.eqb_neq. unfold to_size.
  destruct (Z.leb_spec (pow256 n) z) as [Hle|Hlt].
  - specialize (Hsh eq_refl Hle).
    assert (pow256 (c_szw c) <= pow256 n) by (apply pow256_le; lia).
    pose proof (Z.mod_pos_bound (conv s z) (pow256 (c_szw c))). lia.
  - destruct H as [H|[H Hs]]; [lia|].
    assert (pow256 n <= pow256 (ssize s)) by (apply pow256_le; lia).
    destruct s as [w [|]|]; cbn [ssize sc_in conv] in *.
    + rewrite (Z.mod_small z) by lia.
      destruct (Z.ltb_spec (2 * z) (pow256 w)); [lia|].
      assert (Hlt2 : pow256 w * 256 <= pow256 (c_szw c)).
      { replace (pow256 w * 256) with (pow256 (S w)) by (rewrite pow256_S; lia). apply pow256_le. lia. }
      replace ((z - pow256 w) mod pow256 (c_szw c)) with (z - pow256 w + pow256 (c_szw c)).
      * lia.
      * apply (Z.mod_unique _ _ (-1)); lia.
    + lia.
    + assert (1 < pow256 (c_szw c)).
      { assert (pow256 1 <= pow256 (c_szw c)) by (apply pow256_le; lia). unfold pow256 at 1 in H1. simpl in H1. lia. }
      assert (256 <= pow256 (c_szw c)).
      { assert (pow256 1 <= pow256 (c_szw c)) by (apply pow256_le; lia). exact H2. }
      destruct (Z.eqb_spec z 0); [lia|]. rewrite Z.mod_small by lia. lia.
Qed.

Lemma fits_true c s n z : (n <= ssize s)%nat -> 0 <= z ->
  fits_declared_width c s n z = true ->
  z < pow256 n /\ (sc_in s z = true \/ (c_szw c <= ssize s)%nat) /\ to_size c (conv s z) = z.
Proof.
  intros Hn Hz H. split; [|split].
  - destruct (Z.ltb_spec z (pow256 n)); auto. rewrite fits_false in H; auto. discriminate.
  - destruct (sc_in s z) eqn:E; auto. right. destruct (Nat.leb_spec (c_szw c) (ssize s)); auto.
    rewrite fits_false in H; auto. discriminate.
  - unfold fits_declared_width in H. apply andb_true_iff in H. lia.
Qed.

Lemma claims_nonneg c id fs : forall vs z, In z (claims c id fs vs) -> 0 <= z.
Proof.
  assert (Hm : forall o z, In z (map Z.of_nat (to_list o)) -> 0 <= z).
  { intros [n|] z; simpl; [|tauto]. intros [<-|[]]. lia. }
  induction fs; intros [|v vs] z H; simpl in H; try tauto.
  apply in_app_or in H. destruct H as [H|H]; eauto.
  unfold claim in H. destruct t; try (eapply Hm; eauto; fail).
  destruct g; try (eapply Hm; eauto; fail). destruct v; try (eapply Hm; eauto; fail).
  destruct (String.eqb id1 id); [|destruct H].
  destruct (nth_error cases i); simpl in H; [|tauto]. destruct H as [<-|[]].
  apply Z.mod_pos_bound. apply pow256_pos.
Qed.

Lemma misfit c fs vs pre id s n k v z : wf fs = true -> typed fs = true ->
  has_fields fs vs -> field_at fs vs pre id (FFixed (TScalar s) n) k v ->
  In z (claims c id fs vs) -> (forall z', In z' (claims c id fs vs) -> z' = z) ->
  (pow256 n <= z \/ (sc_in s z = false /\ (ssize s < c_szw c)%nat)) ->
  fails_with c fs vs pre id ValidationFailure [].
Proof.
  intros Hw Ht Hv Hat Hin Hall Hz.
  assert (Hcl : claims c id fs vs <> []) by (intros E; rewrite E in Hin; auto).
  destruct (derived_scalar c _ _ _ _ _ _ _ Hw Ht Hv Hat Hcl) as [_ (s' & n' & E & Hn & _)].
  inversion E; subst s' n'.
  destruct (derived_prog c _ _ _ _ _ _ _ _ Hw Ht Hv Hat Hcl) as (z0 & l & Hc & Hp).
  assert (z0 = z) as -> by (apply Hall; rewrite Hc; left; auto).
  eapply field_fails; eauto. rewrite Hp.
  assert (forallb (Z.eqb z) l = true) as ->.
  { apply forallb_forall. intros x Hx. apply Z.eqb_eq. symmetry. apply Hall. rewrite Hc. right; auto. }
  rewrite fits_false; auto. apply (claims_nonneg c id fs vs). auto.
Qed.

(** ** Constraint checks before the write *)

Lemma wcheck_scalar s n k z : constr_ok (FFixed (TScalar s) n) k = true ->
  wcheck k (VZ z) = WRet tt /\ holds k (VZ z) \/
  wcheck k (VZ z) = WErr ValidationFailure /\ ~ holds k (VZ z).
Proof.
  intros Hk. rewrite <- check_holds. unfold wcheck.
  destruct k; simpl in *; try discriminate; unfold cres_of_bool.
  - left. auto.
  - destruct (do_cmp o (conv s0 z) lit); [left|right]; split; auto; discriminate.
  - destruct (existsb (fun l => conv s0 z =? l) lits); [left|right]; split; auto; discriminate.
  - destruct (do_fcmp o (fround w (FFin (units z))) (fdec w lit)); [left|right]; split; auto; discriminate.
  - destruct (existsb (fun l => feqb (fround w (FFin (units z))) (fdec w l)) lits); [left|right]; split; auto; discriminate.
  - destruct (f (VZ z)); [left|right]; split; auto; discriminate.
Qed.

Lemma wcheck_holds k v : holds k v -> wcheck k v = WRet tt.
Proof. rewrite <- check_holds. unfold wcheck. intros ->. auto. Qed.

Lemma wcheck_not_holds k v out : ~ holds k v -> wmem (wcheck k v) <> (Ok tt, out).
Proof.
  rewrite <- check_holds. unfold wcheck. destruct (check k v); simpl; intros H; try discriminate.
  tauto.
Qed.

(** ** Verified lengths *)

Lemma verify_then_write_cases c fs vs id s n z : wctx fs vs ->
  (has_cond_obligation fs id = true -> True) ->
  verify_then_write c fs vs id (TScalar s) n (VZ z) =
  if forallb (fun m => m =? to_size c z) (cond_claims (mk_env fs vs) id fs vs)
  then write_const c (TScalar s) n (VZ z) else WErr FoundContradictingLength.
Proof.
  intros Hx _. unfold verify_then_write. destruct (has_cond_obligation fs id) eqn:E.
  - rewrite (x_verify _ _ Hx). destruct (forallb _ _); auto.
  - rewrite (x_nocond _ _ Hx) by auto. auto.
Qed.

Lemma cond_scalar fs vs pre id t k v m : wf fs = true -> typed fs = true ->
  has_fields fs vs -> field_at fs vs pre id t k v -> In m (cond_claims (mk_env fs vs) id fs vs) ->
  exists s n, t = FFixed (TScalar s) n.
Proof.
  intros Hw Ht Hv Hat Hin.
  destruct (at_facts fs vs pre id t k v Hw Ht Hv Hat)
    as (post & vpre & vpost & E1 & E2 & L & V1 & V2 & V3 & W1 & W2 & W3 & T1 & T2 & T4 & T3 & Hx & Hm & Hs & Hl).
  destruct (x_scalar _ _ Hx id) as (s & n & Hl').
  - destruct (has_cond_obligation fs id) eqn:E; [apply orb_true_r|].
    rewrite (x_nocond _ _ Hx) in Hin by auto. destruct Hin.
  - rewrite Hl in Hl'. inversion Hl'; subst. eauto.
Qed.

(** What the program of a scalar field is, in terms of the specification. *)
Lemma scalar_prog c fs vs pre id k v s n : wf fs = true -> typed fs = true ->
  has_fields fs vs -> field_at fs vs pre id (FFixed (TScalar s) n) k v ->
  claims c id fs vs = [] -> exists z, slot None k (FFixed (TScalar s) n) v = VZ z /\
  field_prog c fs vs id (FFixed (TScalar s) n) k v =
    wbind (match pinned (TScalar s) k with Some _ => WRet tt | None => wcheck k v end)
          (fun _ => verify_then_write c fs vs id (TScalar s) n (VZ z)).
Proof.
  intros Hw Ht Hv Hat Hcl.
  destruct (at_facts fs vs pre id _ k v Hw Ht Hv Hat)
    as (post & vpre & vpost & E1 & E2 & L & V1 & V2 & V3 & W1 & W2 & W3 & T1 & T2 & T4 & T3 & Hx & Hm & Hs & Hl).
  assert (Hd : is_derived fs id = false).
  { destruct (is_derived fs id) eqn:E; auto. apply (x_derived _ _ Hx c) in E. congruence. }
  unfold field_prog. cbn [write_ty]. unfold write_fixed. rewrite Hd. simpl orb.
  unfold is_frozen. rewrite frozen_pinned. destruct v; try (simpl in V2; tauto).
  cbn [slot]. destruct (pinned (TScalar s) k) as [w|] eqn:Ep.
  - simpl in Ep. destruct k; try discriminate. destruct o; try discriminate. inversion Ep; subst.
    eexists; split; [reflexivity|]. auto.
  - eexists; split; [reflexivity|]. auto.
Qed.

Lemma unverified c fs vs pre id t k v m z : wf fs = true -> typed fs = true ->
  has_fields fs vs -> field_at fs vs pre id t k v ->
  In m (cond_claims (mk_env fs vs) id fs vs) ->
  slot (hd_error (claims c id fs vs)) k t (emit_ty c t v) = VZ z -> m <> to_size c z ->
  exists r, (r = FoundContradictingLength \/ r = ValidationFailure) /\ fails_with c fs vs pre id r [].
Proof.
  intros Hw Ht Hv Hat Hin Hs Hne.
  destruct (cond_scalar _ _ _ _ _ _ _ _ Hw Ht Hv Hat Hin) as (s & n & ->).
  destruct (wctx_intro fs vs Hw Ht Hv) as [Hx _].
  destruct (at_facts fs vs pre id _ k v Hw Ht Hv Hat)
    as (_ & _ & _ & _ & _ & _ & _ & V2 & _ & _ & _ & _ & _ & _ & T4 & _).
  assert (Hvf : verify_then_write c fs vs id (TScalar s) n (VZ z) = WErr FoundContradictingLength).
  { rewrite verify_then_write_cases by auto.
    destruct (forallb _ _) eqn:Ef; auto. rewrite forallb_forall in Ef. specialize (Ef _ Hin). lia. }
  assert (Hres : exists r, (r = FoundContradictingLength \/ r = ValidationFailure) /\
            field_prog c fs vs id (FFixed (TScalar s) n) k v = WErr r).
  { destruct (claims c id fs vs) as [|z0 l0] eqn:Ec.
    - destruct (scalar_prog c _ _ _ _ _ _ _ _ Hw Ht Hv Hat Ec) as (z' & Hz' & ->).
      simpl hd_error in Hs. cbn [emit_ty] in Hs. rewrite Hz' in Hs. inversion Hs; subst z'.
      rewrite Hvf. destruct (pinned (TScalar s) k); [eauto|]. simpl in V2. destruct v; try tauto.
      destruct (wcheck_scalar s n k z0 T4) as [[-> _]|[-> _]]; simpl; eauto.
    - assert (Hcl : claims c id fs vs <> []) by congruence.
      destruct (derived_prog c _ _ _ _ _ _ _ _ Hw Ht Hv Hat Hcl) as (z1 & l & Hc & ->).
      rewrite Ec in Hc. inversion Hc; subst z1 l. simpl in Hs. inversion Hs; subst z.
      destruct (forallb (Z.eqb z0) l0); [|eauto].
      destruct (fits_declared_width c s n z0); [|eauto].
      rewrite Hvf. destruct (wcheck_scalar s n k (conv s z0) T4) as [[-> _]|[-> _]]; simpl; eauto. }
  destruct Hres as (r & Hr & Hp). exists r. split; auto. eapply field_fails; eauto. rewrite Hp. auto.
Qed.

(** ... exactly: only the verification can fail. *)
Lemma unverified_exact c fs vs pre id t k v m z : wf fs = true -> typed fs = true ->
  has_fields fs vs -> field_at fs vs pre id t k v ->
  In m (cond_claims (mk_env fs vs) id fs vs) -> claims c id fs vs = [] ->
  slot None k t v = VZ z -> m <> to_size c z -> holds k v ->
  fails_with c fs vs pre id FoundContradictingLength [].
Proof.
  intros Hw Ht Hv Hat Hin Hcl Hs Hne Hk.
  destruct (cond_scalar _ _ _ _ _ _ _ _ Hw Ht Hv Hat Hin) as (s & n & ->).
  destruct (wctx_intro fs vs Hw Ht Hv) as [Hx _].
  destruct (scalar_prog c _ _ _ _ _ _ _ _ Hw Ht Hv Hat Hcl) as (z' & Hz' & Hp).
  rewrite Hz' in Hs. inversion Hs; subst z'.
  eapply field_fails; eauto. rewrite Hp, (wcheck_holds _ _ Hk).
  rewrite verify_then_write_cases by auto.
  destruct (forallb _ _) eqn:Ef.
  - rewrite forallb_forall in Ef. specialize (Ef _ Hin). lia.
  - destruct (pinned _ _); auto.
Qed.

(** The error is reported only for a reason. *)
Lemma contradiction_reason c fs vs pre id s n k v out : wf fs = true -> typed fs = true ->
  has_fields fs vs -> field_at fs vs pre id (FFixed (TScalar s) n) k v ->
  wmem (stream_cast c fs vs) = (Err (FoundContradictingLength, id), out) ->
  (exists z1 z2, In z1 (claims c id fs vs) /\ In z2 (claims c id fs vs) /\ z1 <> z2) \/
  (exists m z, In m (cond_claims (mk_env fs vs) id fs vs) /\
     slot (hd_error (claims c id fs vs)) k (FFixed (TScalar s) n) v = VZ z /\ m <> to_size c z).
Proof.
  intros Hw Ht Hv Hat Hr.
  destruct (err_at _ _ _ _ _ _ _ _ _ _ Hw Ht Hv Hat Hr) as (part & Hp & _).
  destruct (wctx_intro fs vs Hw Ht Hv) as [Hx _].
  destruct (at_facts fs vs pre id _ k v Hw Ht Hv Hat)
    as (_ & _ & _ & _ & _ & _ & _ & V2 & _ & _ & W2 & _ & _ & _ & T4 & _).
  cbn [wf_ty ct_wf csize] in W2. rewrite andb_true_iff in W2.
  assert (Hver : forall z part, sc_in s z = true ->
            wmem (verify_then_write c fs vs id (TScalar s) n (VZ z)) = (Err FoundContradictingLength, part) ->
            exists m, In m (cond_claims (mk_env fs vs) id fs vs) /\ m <> to_size c z).
  { intros z p Hz. rewrite verify_then_write_cases by auto. destruct (forallb _ _) eqn:Ef.
    - rewrite write_const_ok; [discriminate| | |]; simpl; auto; lia.
    - intros _. clear - Ef. induction (cond_claims _ _ _ _); simpl in *; [discriminate|].
      destruct (Z.eqb_spec a (to_size c z)).
      + destruct IHl as (m & H1 & H2); auto. eauto.
      + eauto. }
  destruct (claims c id fs vs) as [|z0 l0] eqn:Ec.
  - right. destruct (scalar_prog c _ _ _ _ _ _ _ _ Hw Ht Hv Hat Ec) as (z & Hz & Hp').
    rewrite Hp' in Hp. clear Hp'. simpl hd_error. rewrite Hz.
    assert (Hzin : sc_in s z = true).
    { cbn [slot] in Hz. destruct (pinned (TScalar s) k) eqn:Epk.
      - pose proof (pinned_ok _ _ _ _ T4 Epk) as Hpk. rewrite Hz in Hpk. exact Hpk.
      - rewrite Hz in V2. exact V2. }
    assert (Hq : wmem (verify_then_write c fs vs id (TScalar s) n (VZ z)) = (Err FoundContradictingLength, part)).
    { destruct (pinned (TScalar s) k); [exact Hp|]. simpl in V2. destruct v; try tauto.
      destruct (wcheck_scalar s n k z0 T4) as [[E _]|[E _]]; rewrite E in Hp; [exact Hp|discriminate]. }
    destruct (Hver _ _ Hzin Hq) as (m & M1 & M2). eauto.
  - assert (Hcl : claims c id fs vs <> []) by congruence.
    destruct (derived_prog c _ _ _ _ _ _ _ _ Hw Ht Hv Hat Hcl) as (z1 & l & Hc & Hp').
    rewrite Ec in Hc. inversion Hc; subst z1 l. rewrite Hp' in Hp. clear Hp'.
    destruct (forallb (Z.eqb z0) l0) eqn:Ef.
    + right. destruct (fits_declared_width c s n z0); [|discriminate]. simpl.
      destruct (wcheck_scalar s n k (conv s z0) T4) as [[E _]|[E _]]; rewrite E in Hp; [|discriminate].
      cbn [wbind] in Hp. destruct (Hver _ _ (conv_in _ _) Hp) as (m & M1 & M2). eauto.
    + left. clear - Ef. exists z0.
      assert (exists x, In x l0 /\ x <> z0) as (x & H1 & H2).
      { induction l0; simpl in *; [discriminate|]. destruct (Z.eqb_spec z0 a); simpl in *.
        - destruct IHl0 as (x & ? & ?); auto. eauto.
        - eauto. }
      exists x. simpl. auto.
Qed.

(** ** Computed lengths *)

Lemma not_derived_other fs vs pre id t k v : wf fs = true -> typed fs = true ->
  has_fields fs vs -> field_at fs vs pre id t k v -> (forall s n, t <> FFixed (TScalar s) n) ->
  is_derived fs id = false.
Proof.
  intros Hw Ht Hv Hat Hne.
  destruct (at_facts fs vs pre id _ k v Hw Ht Hv Hat)
    as (post & vpre & vpost & E1 & E2 & L & V1 & V2 & V3 & W1 & W2 & W3 & T1 & T2 & T4 & T3 & Hx & Hm & Hs & Hl).
  destruct (is_derived fs id) eqn:E; auto. exfalso.
  destruct (x_scalar _ _ Hx id) as (s & n & Hl'); [rewrite E; auto|].
  rewrite Hl in Hl'. inversion Hl'; subst. eapply Hne; eauto.
Qed.

Lemma other_prog c fs vs pre id t k v : wf fs = true -> typed fs = true ->
  has_fields fs vs -> field_at fs vs pre id t k v -> (forall t' n, t <> FFixed t' n) ->
  field_prog c fs vs id t k v = wbind (wcheck k v) (fun _ => write_ty c fs vs id true k t v).
Proof.
  intros Hw Ht Hv Hat Hne. unfold field_prog.
  rewrite (not_derived_other _ _ _ _ _ _ _ Hw Ht Hv Hat) by auto.
  destruct t; auto. exfalso. eapply Hne; eauto.
Qed.

(** A field whose check comes first: it fails with [r], or already on its
    constraint. *)
Lemma checked_fails c fs vs pre id t k v r : wf fs = true -> typed fs = true ->
  has_fields fs vs -> field_at fs vs pre id t k v -> (forall t' n, t <> FFixed t' n) ->
  wmem (write_ty c fs vs id true k t v) = (Err r, []) ->
  (holds k v -> fails_with c fs vs pre id r []) /\ fst (wmem (stream_cast c fs vs)) <> Ok tt.
Proof.
  intros Hw Ht Hv Hat Hne Hr. pose proof (other_prog c _ _ _ _ _ _ _ Hw Ht Hv Hat Hne) as Hp. split.
  - intros Hk. eapply field_fails; eauto. rewrite Hp, (wcheck_holds _ _ Hk). auto.
  - destruct (wmem (stream_cast c fs vs)) as [[[]|e| | |] out] eqn:E; simpl; try discriminate.
    exfalso. destruct (ok_at _ _ _ _ _ _ _ _ _ Hw Ht Hv Hat E) as (part & rest & Hf & _).
    rewrite Hp in Hf. apply wmem_bind_ok in Hf. destruct Hf as ([] & ? & ? & _ & Hf & _). congruence.
Qed.

Lemma miscounted c fs vs pre id t k xs f ids args : wf fs = true -> typed fs = true ->
  has_fields fs vs -> field_at fs vs pre id t k (VSeq xs) -> computed_len t = Some (f, ids) ->
  lookups (mk_env fs vs) ids = Some args -> Z.of_nat (length xs) <> to_size c (f args) ->
  (holds k (VSeq xs) -> fails_with c fs vs pre id FoundContradictingLength []) /\
  fst (wmem (stream_cast c fs vs)) <> Ok tt.
Proof.
  intros Hw Ht Hv Hat Hc Hl Hne. eapply checked_fails; eauto.
  - intros t' n ->. discriminate.
  - assert (Hver : forall l, l = LenComp f ids ->
      verify_len c (mk_env fs vs) l (Z.of_nat (length xs)) = WErr FoundContradictingLength).
    { intros l ->. simpl. rewrite Hl. destruct (Z.eqb_spec (to_size c (f args)) (Z.of_nat (length xs))); auto. lia. }
    destruct t as [|elt [|] b| | |gs recsz [|] b| |]; try discriminate; inversion Hc; subst;
      cbn [write_ty]; rewrite Hver by auto; auto.
Qed.

(** ** Optional fields *)

Lemma presence c fs vs pre id b p ids k v args : wf fs = true -> typed fs = true ->
  has_fields fs vs -> field_at fs vs pre id (FMaybe b p ids) k v ->
  lookups (mk_env fs vs) ids = Some args ->
  (if p args then v = VNone else v <> VNone) ->
  (holds k v -> fails_with c fs vs pre id ValidationFailure []) /\
  fst (wmem (stream_cast c fs vs)) <> Ok tt.
Proof.
  intros Hw Ht Hv Hat Hl Hp. eapply checked_fails; eauto; [discriminate|].
  destruct (at_facts fs vs pre id _ k v Hw Ht Hv Hat)
    as (_ & _ & _ & _ & _ & _ & _ & V2 & _).
  cbn [write_ty has_ty] in *. rewrite Hl. destruct (p args); subst; auto.
  destruct v; try tauto; auto.
Qed.

(** ** Variants *)

Lemma wrong_alternative c fs vs pre id g al k i v : wf fs = true -> typed fs = true ->
  has_fields fs vs -> field_at fs vs pre id (FUnion g al) k (VAlt i v) -> is_match_field g = false ->
  (forall j, selects (mk_env fs vs) g j -> j <> i ->
     (holds k (VAlt i v) -> fails_with c fs vs pre id ValidationFailure []) /\
     fst (wmem (stream_cast c fs vs)) <> Ok tt) /\
  ((forall j, ~ selects (mk_env fs vs) g j) ->
     (holds k (VAlt i v) -> fails_with c fs vs pre id TypeDeductionFailure []) /\
     fst (wmem (stream_cast c fs vs)) <> Ok tt).
Proof.
  intros Hw Ht Hv Hat Hg.
  destruct (at_facts fs vs pre id _ k _ Hw Ht Hv Hat)
    as (post & vpre & vpost & E1 & E2 & L & V1 & V2 & V3 & W1 & W2 & W3 & T1 & T2 & T4 & T3 & Hx & Hm & Hs & Hl).
  assert (Hd : exists r, deduce_type (mk_env fs vs) g = Some r).
  { cbn [wf_ty typed_ty] in *. rewrite andb_true_iff in *.
    destruct (deduce_type_total (tafter [] pre) (rev (f_ids pre)) (mk_env fs vs) g (a_len al)) as (r & Hr & _); try tauto; eauto.
    - eapply env_has_sub; [apply (x_has _ _ Hx)|auto].
    - eapply covers_incl; [apply (x_cov _ _ Hx)|]. intros x Hin. apply in_rev in Hin.
      rewrite E1, f_ids_app. apply in_or_app; auto. }
  destruct Hd as [r Hr]. split.
  - intros j Hj Hji. eapply checked_fails; eauto; [discriminate|].
    apply deduce_type_iff in Hj. cbn [write_ty].
    destruct g; try discriminate; rewrite Hj; (destruct (Nat.eqb_spec j i); [congruence|auto]).
  - intros Hn. eapply checked_fails; eauto; [discriminate|].
    destruct r as [j|]; [exfalso; apply (Hn j); apply deduce_type_iff; auto|].
    cbn [write_ty]. destruct g; try discriminate; rewrite Hr; auto.
Qed.

(** ** Numbers on the wire *)

Lemma number_dec o bs : number o bs = wire_dec o bs.
Proof.
  assert (H : forall l a, fold_left (fun acc b => 256 * acc + b) (rev l) a =
                          le_dec l + a * pow256 (length l)).
  { induction l as [|b l IH]; intros a; simpl.
    - rewrite pow256_0. lia.
    - rewrite fold_left_app, IH. simpl. rewrite pow256_S. lia. }
  unfold number, wire_dec. destruct o.
  - rewrite H. lia.
  - rewrite <- (rev_involutive bs) at 1. rewrite H. lia.
Qed.

Lemma firstn_le_enc n : forall w x, (n <= w)%nat -> firstn n (le_enc w x) = le_enc n x.
Proof. induction n; intros [|w] x H; simpl; auto; try lia. f_equal. apply IHn. lia. Qed.

Lemma number_field o s n z : (n <= ssize s)%nat -> (o = Little \/ n = ssize s) ->
  number o (firstn n (wire_scalar o s z)) = sc_bits s z mod pow256 n.
Proof.
  intros Hn Ho. rewrite number_dec.
  destruct o; unfold wire_scalar, wire_dec.
  - rewrite firstn_le_enc by auto. apply le_dec_enc.
  - destruct Ho as [Ho|Ho]; [discriminate|]. subst n. rewrite firstn_all2 by (rewrite rev_length, le_enc_length; lia).
    rewrite rev_involutive. apply le_dec_enc.
Qed.

Lemma bits_of_fit c s n z : (n <= ssize s)%nat -> 0 <= z -> fits_declared_width c s n z = true ->
  (s = SBool -> sc_in s z = true) ->
  sc_bits s (conv s z) mod pow256 n = z.
Proof.
  intros Hn Hz Hf Hb. destruct (fits_true c s n z Hn Hz Hf) as (H1 & _ & _).
  assert (pow256 n <= pow256 (ssize s)) by (apply pow256_le; lia).
  assert (Hbits : sc_bits s (conv s z) = z).
  { unfold sc_bits. destruct s as [w [|]|]; cbn [ssize conv] in *.
    - rewrite (Z.mod_small z) by lia. destruct (_ <? _); [apply Z.mod_small; lia|].
      symmetry. apply (Z.mod_unique _ _ (-1)); lia.
    - rewrite !Z.mod_small; lia.
    - specialize (Hb eq_refl). simpl in Hb. change (pow256 1) with 256.
      destruct (Z.eqb_spec z 0); subst; auto. assert (z = 1) as -> by lia. auto. }
  rewrite Hbits. apply Z.mod_small. lia.
Qed.

Lemma length_on_wire c fs vs pre id s n k v out z : wf fs = true -> typed fs = true ->
  has_fields fs vs -> field_at fs vs pre id (FFixed (TScalar s) n) k v ->
  wmem (stream_cast c fs vs) = (Ok tt, out) -> In z (claims c id fs vs) ->
  (c_wire c = Little \/ n = ssize s) -> (1 < c_szw c)%nat ->
  exists bs rest, out = bytes_before c pre (emitted c fs vs) ++ bs ++ rest /\ length bs = n /\
    number (c_wire c) bs = z /\ (forall z', In z' (claims c id fs vs) -> z' = z).
Proof.
  intros Hw Ht Hv Hat Hok Hin Ho Hsz.
  destruct (ok_at _ _ _ _ _ _ _ _ _ Hw Ht Hv Hat Hok) as (part & rest & Hp & He & ->).
  assert (Hcl : claims c id fs vs <> []) by (intros E; rewrite E in Hin; auto).
  destruct (derived_scalar c _ _ _ _ _ _ _ Hw Ht Hv Hat Hcl) as [_ (s' & n' & E & Hn & Hs0)].
  inversion E; subst s' n'. clear E.
  destruct (derived_prog c _ _ _ _ _ _ _ _ Hw Ht Hv Hat Hcl) as (z0 & l & Hc & Hp').
  rewrite Hp' in Hp. clear Hp'.
  destruct (forallb (Z.eqb z0) l) eqn:Ef; [|discriminate].
  destruct (fits_declared_width c s n z0) eqn:Efit; [|discriminate].
  assert (Hall : forall z', In z' (claims c id fs vs) -> z' = z0).
  { intros x Hx. rewrite Hc in Hx. destruct Hx as [|Hx]; auto.
    rewrite forallb_forall in Ef. symmetry. apply Z.eqb_eq. auto. }
  assert (z = z0) as -> by auto.
  exists part, rest. split; auto. subst part. rewrite Hc. cbn [hd_error slot enc_ty enc_ct]. split; [|split].
  - rewrite firstn_length, wire_scalar_length. lia.
  - assert (Hz : 0 <= z0) by (apply (claims_nonneg c id fs vs); auto).
    rewrite number_field by auto. apply (bits_of_fit c); auto. intros ->.
    destruct (fits_true c SBool n z0 Hn Hz Efit) as (_ & [H|H] & _); auto. simpl in H. lia.
  - rewrite <- Hc. auto.
Qed.

(** ** Pinned fields *)

Lemma str_ok_cstr n lit : str_ok n lit = true -> exists s, c_string lit s.
Proof.
  unfold str_ok. rewrite !andb_true_iff. intros [[H1 _] H2].
  assert (Hin : In 0 lit).
  { clear H1. revert H2. induction lit as [|a l IH]; [simpl; lia|]. intros H. destruct l.
    - simpl in H. left. lia.
    - right. apply IH. exact H. }
  clear - Hin. induction lit as [|a l IH]; [destruct Hin|].
  destruct (Z.eq_dec a 0) as [->|Ha].
  - exists []. split; auto. exists l. auto.
  - destruct Hin as [|Hin]; [congruence|]. destruct (IH Hin) as (s & H1 & rest & ->).
    exists (a :: s). split; [simpl; tauto|]. exists rest. auto.
Qed.

Lemma equal_self t : forall v, ct_ok t v -> no_nan v = true -> equal_values v v.
Proof.
  induction t; intros v Hv Hn; destruct v; simpl in Hv; try contradiction.
  - constructor.
  - constructor. destruct Hv as [_ Hv]. simpl in Hn. rewrite forallb_forall in Hn.
    induction Hv as [|x l Hx Hv IH]; constructor.
    + apply IHt; auto. apply Hn. left; auto.
    + apply IH. intros y Hy. apply Hn. right; auto.
  - constructor. destruct Hv as [_ Hv].
    clear Hn. induction Hv as [|x l (z & -> & _) Hv IH]; constructor; auto. constructor.
  - constructor. split; auto. simpl in Hn. intros E. rewrite E in Hn. discriminate.
Qed.

Lemma feqb_fin x n : feqb x (FFin n) = true -> x = FFin n.
Proof. destruct x; simpl; try discriminate. intros H. apply Z.eqb_eq in H. congruence. Qed.

Lemma int_whole u z s x : fdec u z = FFin (units x) -> sc_in s x = true -> int_of s (VF u z) x.
Proof.
  intros E I. destruct s as [w sg|].
  - eapply io_float; eauto; [discriminate|]. apply whole_part_iff. unfold units. pose proof pow_1074.
    symmetry. apply Z.quot_mul. lia.
  - simpl in I. apply orb_true_iff in I as [I|I]; apply Z.eqb_eq in I; subst x.
    + apply io_false; auto.
    + apply io_true; auto. rewrite E. unfold units. pose proof pow_1074. intros X. inversion X.
Qed.

Lemma pinned_holds t n k w : constr_ok (FFixed t n) k = true -> pinned t k = Some w ->
  match t, k with
  | TScalar s, CCmp _ _ lit => sc_in s lit = true
  | TFloat u, CCmp _ _ lit => fdec u (fenc u (units lit)) = FFin (units lit)
  | TArr _ _, CArr _ lit => no_nan lit = true
  | _, _ => True
  end ->
  holds k w.
Proof.
  intros Hk Hp Hg. destruct t, k; simpl in Hp; try discriminate.
  - destruct o; try discriminate. inversion Hp; subst. simpl in Hk |- *.
    exists (conv s0 (conv s lit)). split; [constructor|]. simpl. rewrite !conv_id; auto. rewrite conv_id; auto.
  - destruct neg; try discriminate. inversion Hp; subst. cbn [constr_ok holds] in Hk |- *.
    split; [destruct w; try discriminate; eauto|].
    apply (equal_self (TArr n0 t)); auto. apply ct_okb_ok. exact Hk.
  - destruct neg; try discriminate. inversion Hp; subst. simpl in Hk |- *.
    destruct (str_ok_cstr _ _ Hk) as [s Hs]. exists lit, s, s. auto.
  - destruct o; try discriminate. inversion Hp; subst. exists lit. split; [|reflexivity].
    cbn [constr_ok] in Hk. apply int_whole; auto.
Qed.

Lemma pinned_on_wire c fs vs pre id t n k v w out : wf fs = true -> typed fs = true ->
  has_fields fs vs -> field_at fs vs pre id (FFixed t n) k v -> pinned t k = Some w ->
  claims c id fs vs = [] -> wmem (stream_cast c fs vs) = (Ok tt, out) ->
  exists bs rest, out = bytes_before c pre (emitted c fs vs) ++ bs ++ rest /\ 
    bs = enc_ty (c_wire c) (FFixed t n) w /\
    nth (f_len pre) (emitted c fs vs) VNone = w.
Proof.
  intros Hw Ht Hv Hat Hp Hcl Hok.
  destruct (ok_at _ _ _ _ _ _ _ _ _ Hw Ht Hv Hat Hok) as (part & rest & Hf & He & ->).
  rewrite Hcl in He. simpl hd_error in He.
  assert (Hs : slot None k (FFixed t n) (emit_ty c (FFixed t n) v) = w)
    by (simpl; rewrite Hp; destruct t; auto).
  exists part, rest. split; auto. split; [congruence|].
  destruct (emitted_split c fs vs pre id _ k v Hat) as (p2 & v2 & v3 & _ & E3 & L3 & Hem).
  rewrite Hem, app_nth2; rewrite emit_fields_length by auto; [|lia].
  rewrite Nat.sub_diag. simpl nth. rewrite Hcl. auto.
Qed.
