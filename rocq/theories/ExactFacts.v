(** When a write succeeds and why it fails, exactly. *)
From Coq Require Import ZifyBool ZifyNat Znumtheory.
From Verif Require Import PropDefs WExact BytesFacts ProgFacts ReadFacts ReadMore Safety.
From Verif Require Import WriteFacts WriteMain WriteErr.
From Verif Require ReadLemmas Rewrite.

Definition exact {E} (W : Prop) (Fl : E -> Prop) (o : outcome E unit) : Prop :=
  (o = Ok tt <-> W) /\ forall r, o = Err r <-> Fl r.

Lemma exact_iff {E} W W' (Fl Fl' : E -> Prop) o :
  (W <-> W') -> (forall r, Fl r <-> Fl' r) -> exact W Fl o -> exact W' Fl' o.
Proof. intros HW HF [H1 H2]. split; [tauto|]. intros r. rewrite <- HF. auto. Qed.

Lemma exact_ok {E} : exact (E := E) True (fun _ => False) (Ok tt).
Proof. split; [tauto|]. intros r. split; [discriminate|tauto]. Qed.

Lemma exact_bind {E} W1 W2 (F1 F2 : E -> Prop) (p : wprog E unit) f :
  exact W1 F1 (fst (wmem p)) -> (W1 -> exact W2 F2 (fst (wmem (f tt)))) ->
  exact (W1 /\ W2) (fun r => F1 r \/ (W1 /\ F2 r)) (fst (wmem (wbind p f))).
Proof.
  rewrite wmem_bind. intros [H1 H2] H. destruct (wmem p) as [[[]|e| | |] out]; simpl in *.
  - assert (HW : W1) by (apply H1; auto). destruct (H HW) as [H3 H4].
    destruct (wmem (f tt)) as [o out2]. simpl in *. split; [tauto|]. intros r. rewrite H4.
    split; [tauto|]. intros [X|X]; [apply H2 in X; discriminate|tauto].
  - assert (~ W1) by (intros X; apply H1 in X; discriminate). split; [split; [discriminate|tauto]|].
    intros r. split; [intros X; inversion X; subst; left; apply H2; auto|].
    intros [X|X]; [|tauto]. apply H2 in X. congruence.
  - assert (~ W1) by (intros X; apply H1 in X; discriminate). split; [split; [discriminate|tauto]|].
    intros r. split; [discriminate|]. intros [X|X]; [apply H2 in X; discriminate|tauto].
  - assert (~ W1) by (intros X; apply H1 in X; discriminate). split; [split; [discriminate|tauto]|].
    intros r. split; [discriminate|]. intros [X|X]; [apply H2 in X; discriminate|tauto].
  - assert (~ W1) by (intros X; apply H1 in X; discriminate). split; [split; [discriminate|tauto]|].
    intros r. split; [discriminate|]. intros [X|X]; [apply H2 in X; discriminate|tauto].
Qed.

Lemma exact_map {E E'} W (Fl : E -> Prop) (g : E -> E') p :
  exact W Fl (fst (wmem p)) ->
  exact W (fun r => exists e, g e = r /\ Fl e) (fst (wmem (wmaperr g p))).
Proof.
  intros [H1 H2]. assert (Hm : fst (wmem (wmaperr g p)) =
    match fst (wmem p) with Ok a => Ok a | Err e => Err (g e) | UB => UB | Stuck => Stuck | Throw => Throw end).
  { clear. induction p; simpl; auto. destruct (wmem p); destruct (wmem (wmaperr g p)); simpl in *; auto. }
  rewrite Hm. split.
  - rewrite <- H1. destruct (fst (wmem p)) as [[]| | | |]; split; intros X; try discriminate X; auto.
  - intros r. destruct (fst (wmem p)) as [[]|e| | |] eqn:Eo; split; intros X; try discriminate X.
    + destruct X as (e' & _ & X). apply H2 in X. discriminate.
    + inversion X; subst. exists e. split; auto. apply H2; auto.
    + destruct X as (e' & <- & X). apply H2 in X. congruence.
    + destruct X as (e' & _ & X). apply H2 in X. discriminate.
    + destruct X as (e' & _ & X). apply H2 in X. discriminate.
    + destruct X as (e' & _ & X). apply H2 in X. discriminate.
Qed.

Lemma exact_err {E} (W : Prop) (Fl : E -> Prop) e : ~ W -> (forall r, r = e <-> Fl r) -> exact W Fl (Err e).
Proof. intros H HF. split; [split; [discriminate|tauto]|]. intros r. rewrite <- HF. split; congruence. Qed.

Lemma exact_good {E} (W : Prop) (Fl : E -> Prop) : W -> (forall r, ~ Fl r) -> exact W Fl (Ok tt).
Proof. intros H HF. split; [tauto|]. intros r. split; [discriminate|]. intros X. apply HF in X. tauto. Qed.

Lemma first_fault_cons (ok fault : val -> Prop) x xs : (ok x -> ~ fault x) ->
  (first_fault ok fault (x :: xs) <-> fault x \/ (ok x /\ first_fault ok fault xs)).
Proof.
  intros Hne. split.
  - intros (b & y & a & E & Hb & Hy). destruct b as [|z b]; inversion E; subst; auto.
    inversion Hb; subst. right. split; auto. exists b, y, a. auto.
  - intros [H|[H (b & y & a & -> & Hb & Hy)]].
    + exists [], x, xs. auto.
    + exists (x :: b), y, a. auto.
Qed.

Lemma exact_wfor ok (fault : val -> reason -> Prop) (f : val -> wprog reason unit) xs :
  Forall (fun x => exact (ok x) (fault x) (fst (wmem (f x)))) xs ->
  exact (Forall ok xs) (fun r => first_fault ok (fun x => fault x r) xs) (fst (wmem (wfor xs f))).
Proof.
  induction 1 as [|x xs Hx H IH]; simpl.
  - apply exact_good; auto. intros r (b & y & a & E & _). destruct b; discriminate.
  - eapply exact_iff; [| |eapply exact_bind; [exact Hx|intros _; exact IH]].
    + split; [intros []; auto|]. intros X; inversion X; auto.
    + intros r. rewrite first_fault_cons; [tauto|]. destruct Hx as [X1 X2]. intros Y Z.
      apply X1 in Y. apply X2 in Z. congruence.
Qed.

(** ** Constraints *)

Lemma chars_vz l a b : l = map VZ a -> l = map VZ b -> a = b.
Proof.
  intros H1 H2. apply chars_of_iff in H1, H2. congruence.
Qed.

Lemma fixed_string_eq_dec a b : fixed_string_eq a b <> CStuck.
Proof.
  unfold fixed_string_eq. destruct (cstr a), (cstr b); try discriminate.
  unfold cres_of_bool. destruct (zlist_eqb _ _); discriminate.
Qed.

Lemma str_any_false a lits : str_any a lits = CFalse <->
  (lits <> [] -> exists x, c_string a x /\ Forall (fun m => exists y, c_string m y /\ y <> x) lits).
Proof.
  induction lits as [|b lits IH]; simpl; [split; auto; congruence|].
  pose proof (fixed_string_eq_dec a b) as Hd. destruct (fixed_string_eq a b) eqn:E; [| | |congruence].
  - split; [discriminate|]. intros H. destruct H as (x & H1 & H2); [discriminate|]. inversion H2; subst.
    destruct H3 as (y & Y1 & Y2). apply fixed_string_eq_true in E. destruct E as (x' & X1 & X2).
    exfalso. apply Y2. rewrite (c_string_fun _ _ _ H1 X1). exact (c_string_fun _ _ _ Y1 X2).
  - apply fixed_string_eq_false in E. destruct E as (x & y & X1 & X2 & X3). rewrite IH. split.
    + intros H _. exists x. split; auto. constructor; [eauto|].
      destruct lits as [|m lits]; auto. destruct H as (x' & H1 & H2); [discriminate|].
      rewrite (c_string_fun _ _ _ X1 H1). auto.
    + intros H _. destruct H as (x' & H1 & H2); [discriminate|]. inversion H2; subst. eauto.
  - split; [discriminate|]. intros H. destruct H as (x & H1 & H2); [discriminate|]. inversion H2; subst.
    destruct H3 as (y & Y1 & Y2).
    assert (fixed_string_eq a b = CFalse) by (apply fixed_string_eq_false; eauto 6). congruence.
Qed.

Lemma check_violates t k v : constr_ok t k = true -> has_ty t v ->
  (check k v = CFalse <-> violates k v).
Proof.
  intros Hk Hv. destruct (check_typed t k v Hk Hv) as [H1 H2].
  assert (Hb : tame t k = true -> (check k v = CFalse <-> ~ holds k v)).
  { intros Hn. specialize (H2 Hn). rewrite <- check_holds.
    destruct (check k v); split; try discriminate; try congruence; tauto. }
  destruct k as [|o s lit|s lits| |neg lit|lits| | |]; try (apply Hb; reflexivity); clear Hb H2.
  - clear H1. simpl. transitivity (exists z, as_int s v = Some (Some z) /\ do_cmp o z lit = false).
    + destruct (as_int s v) as [[z|]|]; [|split; [discriminate|intros (? & ? & _); discriminate]..].
      split; [intros H; exists z; destruct (do_cmp o z lit); [discriminate|auto]|].
      intros (z' & H & H'). inversion H; subst. rewrite H'. auto.
    + split; intros (z & H & H'); exists z; [rewrite <- as_int_iff|rewrite as_int_iff]; (split; [auto|]).
      * rewrite <- do_cmp_iff. congruence.
      * rewrite <- do_cmp_iff in H'. destruct (do_cmp o z lit); congruence.
  - clear H1. simpl. transitivity (exists z, as_int s v = Some (Some z) /\ ~ In z lits).
    + destruct (as_int s v) as [[z|]|]; [|split; [discriminate|intros (? & ? & _); discriminate]..].
      assert (E : existsb (fun l => z =? l) lits = true <-> In z lits).
      { rewrite existsb_exists. split; [intros (x & I & Hx); apply Z.eqb_eq in Hx; subst; auto|].
        intros I. exists z. rewrite Z.eqb_refl. auto. }
      split.
      * intros H. exists z. split; auto. rewrite <- E. destruct (existsb (fun l => z =? l) lits); discriminate.
      * intros (z' & H & H'). inversion H; subst z'. rewrite <- E in H'.
        destruct (existsb (fun l => z =? l) lits); [congruence|auto].
    + split; intros (z & H & H'); exists z; [rewrite <- as_int_iff|rewrite as_int_iff]; auto.
  - destruct t as [[s0| | |]| | | | | | ]; try discriminate. simpl in Hv. destruct v as [|l| | | | |]; try tauto.
    simpl in H1 |- *. destruct Hv as [_ Hv]. apply chars_of_ok in Hv. destruct Hv as [zs Hz].
    rewrite Hz in *. pose proof (proj1 (chars_of_iff _ _) Hz) as Hz'. subst l. clear Hz. destruct neg; simpl.
    + transitivity (fixed_string_eq zs lit = CTrue).
      { destruct (fixed_string_eq zs lit); simpl; split; congruence. }
      rewrite fixed_string_eq_true. split.
      * intros (x & X1 & X2). exists zs, x, x. auto.
      * intros (a & x & y & E & X1 & X2 & ->). inversion E as [E'].
        rewrite (chars_vz _ _ _ eq_refl E'). eauto.
    + rewrite fixed_string_eq_false. split.
      * intros (x & y & X1 & X2 & X3). exists zs, x, y. auto.
      * intros (a & x & y & E & X1 & X2 & X3). inversion E as [E'].
        rewrite (chars_vz _ _ _ eq_refl E'). eauto 6.
  - destruct t as [[s0| | |]| | | | | | ]; try discriminate. simpl in Hv. destruct v as [|l| | | | |]; try tauto.
    simpl in H1 |- *. destruct Hv as [_ Hv]. apply chars_of_ok in Hv. destruct Hv as [zs Hz].
    rewrite Hz in *. pose proof (proj1 (chars_of_iff _ _) Hz) as Hz'. subst l. clear Hz.
    rewrite str_any_false. split.
    + intros H. exists zs. auto.
    + intros (a & E & H). inversion E as [E']. rewrite (chars_vz _ _ _ eq_refl E'). auto.
Qed.

Lemma exact_wcheck t k v : constr_ok t k = true -> has_ty t v ->
  exact (holds k v) (fun r => violates k v /\ r = ValidationFailure) (fst (wmem (wcheck k v))).
Proof.
  intros Hk Hv. destruct (check_typed t k v Hk Hv) as [H1 _].
  pose proof (check_holds k v) as Ht. pose proof (check_violates t k v Hk Hv) as Hf.
  unfold wcheck. destruct (check k v); simpl; [| | |congruence].
  - apply exact_good; [apply Ht; auto|]. intros r [X _]. apply Hf in X. discriminate.
  - apply exact_err; [intros X; apply Ht in X; discriminate|]. intros r. split; [|tauto].
    intros ->. split; auto. apply Hf; auto.
  - split; [split; [discriminate|intros X; apply Ht in X; discriminate]|].
    intros r. split; [discriminate|]. intros [X _]. apply Hf in X. discriminate.
Qed.

(** ** Lengths *)

Lemma conv_congr w sg x y : x mod pow256 w = y mod pow256 w -> conv (SInt w sg) x = conv (SInt w sg) y.
Proof. intros H. destruct sg; simpl; rewrite H; auto. Qed.

Lemma pow256_div a b : (a <= b)%nat -> (pow256 a | pow256 b).
Proof.
  intros H. exists (pow256 (b - a)). unfold pow256. rewrite <- Z.pow_add_r by lia. f_equal. lia.
Qed.

Lemma mod_mod_le a b x : (a <= b)%nat -> (x mod pow256 b) mod pow256 a = x mod pow256 a.
Proof.
  intros H. pose proof (pow256_pos a). pose proof (pow256_pos b).
  rewrite <- (Znumtheory.Zmod_div_mod (pow256 a) (pow256 b) x); auto. apply pow256_div; auto.
Qed.

Lemma fits_iff c s n z : (n <= ssize s)%nat -> 0 <= z ->
  (fits_declared_width c s n z = true <-> fits c s n z).
Proof.
  intros Hn Hz. split.
  - intros H. destruct (fits_true c s n z Hn Hz H) as (H1 & _ & H2). split; auto.
    exists (conv s z). split; [apply conv_in|exact H2].
  - intros [H1 (x & Hx & Hm)]. change (256 ^ Z.of_nat n) with (pow256 n) in H1.
    change (256 ^ Z.of_nat (c_szw c)) with (pow256 (c_szw c)) in Hm.
    unfold fits_declared_width. apply andb_true_iff. split.
    + destruct (Nat.ltb n (c_szw c)); auto. apply Z.eqb_eq. rewrite Z.shiftr_div_pow2 by lia.
      apply Z.div_small. split; auto. rewrite Z.pow_mul_r by lia. exact H1.
    + apply Z.eqb_eq. unfold to_size. destruct s as [w sg|].
      * destruct (Nat.leb_spec w (c_szw c)).
        -- assert (conv (SInt w sg) z = x) as ->; auto.
           rewrite <- (ReadLemmas.conv_id _ _ Hx). apply conv_congr. rewrite <- Hm. apply mod_mod_le; auto.
        -- destruct (Rewrite.conv_mod w sg z) as [q ->].
           destruct (pow256_div (c_szw c) w) as [d Hd]; [lia|]. rewrite Hd, Z.mul_assoc.
           rewrite Z.mod_add by (pose proof (pow256_pos (c_szw c)); lia).
           rewrite <- Hm. apply Z.mod_mod. pose proof (pow256_pos (c_szw c)); lia.
      * simpl in Hx. pose proof (pow256_pos (c_szw c)) as Hp.
        assert (x = 0 \/ x = 1) as [->| ->] by lia.
        -- rewrite Z.mod_0_l in Hm by lia. subst z. simpl. apply Z.mod_0_l. lia.
        -- destruct (Z.eq_dec (pow256 (c_szw c)) 1) as [E1|E1].
           ++ rewrite E1, Z.mod_1_r in *. auto.
           ++ rewrite Z.mod_small in Hm by lia. subst z. simpl. apply Z.mod_small. lia.
Qed.

Lemma confirmed_iff c F V id z :
  forallb (fun m => m =? to_size c z) (cond_claims (mk_env F V) id F V) = true <->
  confirmed c F V id (VZ z).
Proof.
  rewrite forallb_forall. unfold confirmed. split.
  - intros H m Hm. exists z. split; auto. apply H in Hm. apply Z.eqb_eq; auto.
  - intros H m Hm. destruct (H m Hm) as (z' & E & ->). inversion E; subst. apply Z.eqb_refl.
Qed.

Lemma exact_vtw c F V id t n v : wctx F V -> ct_wf t = true ->
  match t with TScalar _ | TFloat _ => (n <= csize t)%nat | _ => n = csize t end -> ct_ok t v ->
  (has_cond_obligation F id = true -> exists s, t = TScalar s) ->
  exact (confirmed c F V id v) (fun r => ~ confirmed c F V id v /\ r = FoundContradictingLength)
    (fst (wmem (verify_then_write c F V id t n v))).
Proof.
  intros Hx Hw Hn Hv Hs. unfold verify_then_write. destruct (has_cond_obligation F id) eqn:Eh.
  - destruct (Hs eq_refl) as [s ->]. destruct v; try (simpl in Hv; tauto).
    rewrite (x_verify _ _ Hx). pose proof (confirmed_iff c F V id z) as Hc.
    destruct (forallb _ _).
    + rewrite write_const_ok by auto. simpl. apply exact_good; [tauto|]. intros r [X _]. apply X, Hc; auto.
    + simpl. assert (~ confirmed c F V id (VZ z)) by (intros X; apply Hc in X; discriminate).
      apply exact_err; auto. intros r; split; [intros ->; auto|tauto].
  - rewrite write_const_ok by auto. simpl.
    assert (confirmed c F V id v). { intros m Hm. rewrite (x_nocond _ _ Hx) in Hm by auto. destruct Hm. }
    apply exact_good; auto. intros r [X _]. tauto.
Qed.

Lemma forall_eq_dec (z : Z) l : Forall (eq z) l \/ ~ Forall (eq z) l.
Proof. destruct (Forall_dec (eq z) (Z.eq_dec z) l); auto. Qed.

(** ** Fixed-size fields of the list *)

Definition field_prog' c F V id k t n v : wprog reason unit :=
  wbind (if is_derived F id || is_frozen (FFixed t n) k then WRet tt else wcheck k v)
        (fun _ => write_fixed c F V id true k t n v).

Lemma exact_fixed c F V id k t n v : wctx F V -> ct_wf t = true ->
  match t with TScalar _ | TFloat _ => (n <= csize t)%nat | _ => n = csize t end -> ct_ok t v ->
  constr_ok (FFixed t n) k = true ->
  (is_derived F id || has_cond_obligation F id = true -> exists s, t = TScalar s) ->
  exact (fixed_ok c F V id k t n v) (fixed_fault c F V id k t n v)
    (fst (wmem (field_prog' c F V id k t n v))).
Proof.
  intros Hx Hw Hn Hv Hk Hs. unfold field_prog', write_fixed, fixed_ok, fixed_fault.
  assert (Hs' : has_cond_obligation F id = true -> exists s, t = TScalar s).
  { intros H. apply Hs. rewrite H. apply orb_true_r. }
  pose proof (x_derived _ _ Hx c id) as Hd.
  destruct (is_derived F id) eqn:Ed.
  - destruct (Hs eq_refl) as [s ->]. unfold derive_value. rewrite (x_fold _ _ Hx).
    pose proof (claims_nonneg c id F V) as Hnn.
    destruct (claims c id F V) as [|z l]; [exfalso; apply Hd; auto|].
    assert (Hz : 0 <= z) by (apply Hnn; left; auto).
    cbn [orb wbind fold_left]. change (record (mkD 0 false true) z) with (mkD z true true).
    destruct (record_agreed l z) as [R1 R2].
    destruct (d_agreed _) eqn:Ea; cbn [negb].
    + assert (HF : Forall (eq z) l) by (apply R1; auto). rewrite R2 by auto.
      assert (Hfi : fits_declared_width c s n z = true <-> fits c s n z) by (apply fits_iff; auto).
      destruct (fits_declared_width c s n z); cbn [negb].
      * assert (Hfit : fits c s n z) by tauto.
        eapply exact_iff; [| |apply (exact_bind _ _ _ _ _ _
          (exact_wcheck (FFixed (TScalar s) n) k (VZ (conv s z)) Hk (conv_in s z))
          (fun _ => exact_vtw c F V id (TScalar s) n (VZ (conv s z)) Hx Hw Hn (conv_in s z) Hs'))].
        -- split; [intros [X1 X2]; split; eauto|]. intros [_ (s' & E & X)]. inversion E; subst. tauto.
        -- intros r. split.
           ++ intros [X|X]; right; (split; [auto|]); exists s; (split; [auto|]); tauto.
           ++ intros [[X _]|[_ (s' & E & X)]]; [tauto|]. inversion E; subst. tauto.
      * assert (Hfit : ~ fits c s n z) by (intros X; apply Hfi in X; discriminate). simpl.
        apply exact_err.
        -- intros [_ (s' & E & X)]. inversion E; subst. tauto.
        -- intros r. split.
           ++ intros ->. right. split; auto. exists s. auto.
           ++ intros [[X _]|[_ (s' & E & X)]]; [tauto|]. inversion E; subst. tauto.
    + assert (HF : ~ Forall (eq z) l) by (intros X; apply R1 in X; discriminate). simpl.
      apply exact_err; [tauto|]. intros r; split; [intros ->; auto|]. tauto.
  - assert (claims c id F V = []) as ->.
    { destruct (claims c id F V); auto. exfalso. assert (false = true) by (apply Hd; discriminate).
      discriminate. }
    unfold is_frozen. rewrite frozen_pinned. cbn [orb andb].
    destruct (pinned t k) as [w|] eqn:Ep.
    + cbn [wbind]. apply exact_vtw; auto. eapply pinned_ok; eauto.
    + eapply exact_iff; [| |apply (exact_bind _ _ _ _ _ _
          (exact_wcheck (FFixed t n) k v Hk Hv)
          (fun _ => exact_vtw c F V id t n v Hx Hw Hn Hv Hs'))].
      * tauto.
      * intros r. tauto.
Qed.

(** ** Every field *)

Definition ex_ty (t : fty) : Prop := forall c F V id mem k v G seen,
  wctx F V -> wf_ty seen t = true -> incl seen (f_ids F) -> typed_ty G t = true ->
  sub G (tafter [] F) -> has_ty t v ->
  is_derived F id || has_cond_obligation F id = false ->
  (mem = true -> forall t' n, t <> FFixed t' n) ->
  exact (ok_ty c (mk_env F V) t v) (fault_ty c (mk_env F V) t v)
    (fst (wmem (write_ty c F V id mem k t v))).

Definition ex_fields (gs : fields) : Prop := forall c F V ws G seen,
  wctx F V -> wf_fields seen gs = true -> incl seen (f_ids F) -> incl (f_ids gs) (f_ids F) ->
  typed_fields G gs = true -> sub G (tafter [] F) -> members (tafter [] F) gs ->
  has_fields gs ws ->
  exact (ok_fields c F V gs ws) (fun e => stops c F V gs ws (snd e) (fst e))
    (fst (wmem (write_fields c F V gs ws))).

Definition ex_alts (al : alts) : Prop := forall c F V id i v G seen,
  wctx F V -> wf_alts seen al = true -> incl seen (f_ids F) -> typed_alts G al = true ->
  sub G (tafter [] F) -> has_alt al i v ->
  is_derived F id || has_cond_obligation F id = false ->
  exact (ok_alts c (mk_env F V) al i v) (fault_alts c (mk_env F V) al i v)
    (fst (wmem (write_alts c F V id al i v))).

Lemma stops_fault c F V gs : forall ws r,
  (exists id, stops c F V gs ws id r) <-> fault_fields c F V gs ws r.
Proof.
  induction gs as [|i t k gs IH]; intros [|w ws] r; simpl; try (split; [intros [_ []]|tauto]).
  rewrite <- IH. split.
  - intros (id & [[-> H]|[H1 H2]]); [left; exact H|right; split; [exact H1|eauto]].
  - intros [H|[H1 [id H2]]]; [exists i; left; auto|exists id; right; auto].
Qed.

Lemma ex_cast gs : ex_fields gs -> forall c ws, wf_fields [] gs = true ->
  typed_fields [] gs = true -> has_fields gs ws ->
  exact (ok_fields c gs ws gs ws) (fun e => stops c gs ws gs ws (snd e) (fst e))
    (fst (wmem (write_fields c gs ws gs ws))).
Proof.
  intros IH c ws Hw Ht Hv. destruct (wctx_intro gs ws Hw Ht Hv) as [Hx Hm].
  eapply IH; eauto.
  - intros x [].
  - apply incl_refl.
  - intros i t Hl. discriminate.
Qed.

Lemma ex_record gs : ex_fields gs -> forall c ws, wf_fields [] gs = true ->
  typed_fields [] gs = true -> has_fields gs ws ->
  exact (ok_fields c gs ws gs ws) (fault_fields c gs ws gs ws)
    (fst (wmem (wmaperr fst (write_fields c gs ws gs ws)))).
Proof.
  intros IH c ws Hw Ht Hv. eapply exact_iff; [reflexivity| |apply exact_map, ex_cast; auto].
  intros r. rewrite <- stops_fault. simpl. split.
  - intros ((r' & id) & <- & H). exists id. exact H.
  - intros (id & H). exists (r, id). auto.
Qed.

Lemma ex_records gs : ex_fields gs -> forall c xs, wf_fields [] gs = true ->
  typed_fields [] gs = true ->
  Forall (fun x => match x with VRec vs => has_fields gs vs | _ => False end) xs ->
  exact (Forall (fun x => exists ws, x = VRec ws /\ ok_fields c gs ws gs ws) xs)
    (fun r => first_fault (fun x => exists ws, x = VRec ws /\ ok_fields c gs ws gs ws)
       (fun x => exists ws, x = VRec ws /\ fault_fields c gs ws gs ws r) xs)
    (fst (wmem (wfor xs (fun x => match x with
                             | VRec ws => wmaperr fst (write_fields c gs ws gs ws)
                             | _ => WStuck
                             end)))).
Proof.
  intros IH c xs Hw Ht Hv.
  apply (exact_wfor (fun x => exists ws, x = VRec ws /\ ok_fields c gs ws gs ws)
    (fun x r => exists ws, x = VRec ws /\ fault_fields c gs ws gs ws r)).
  eapply Forall_impl; [|exact Hv]. intros x Hx. destruct x; try tauto.
  eapply exact_iff; [| |apply ex_record; auto].
  - split; [eauto|]. intros (ws & E & H). inversion E; subst; auto.
  - intros r. split; [eauto|]. intros (ws & E & H). inversion E; subst; auto.
Qed.

Lemma exact_len c e l size : len_value e l ->
  exact (count_ok c e l size)
    (fun r => ~ count_ok c e l size /\ r = FoundContradictingLength)
    (fst (wmem (verify_len c e l (Z.of_nat size)))).
Proof.
  intros Hl. unfold verify_len. destruct l as [i|f ids]; simpl in Hl.
  - simpl. apply exact_good; auto. intros r [X _]. apply X. simpl. auto.
  - destruct Hl as [args Ha]. cbn [count_ok deduce_len]. rewrite Ha. unfold to_size.
    destruct (Z.eqb_spec (f args mod pow256 (c_szw c)) (Z.of_nat size)) as [E|E]; simpl.
    + assert (W : exists args', Some args = Some args' /\
        Z.of_nat size = f args' mod 256 ^ Z.of_nat (c_szw c)) by (exists args; auto).
      apply exact_good; auto. intros r [X _]. tauto.
    + assert (W : ~ exists args', Some args = Some args' /\
        Z.of_nat size = f args' mod 256 ^ Z.of_nat (c_szw c)).
      { intros (a & X1 & X2). inversion X1; subst. auto. }
      apply exact_err; auto. intros r; split; [intros ->; auto|tauto].
Qed.

Lemma ctx_len F V G seen l : wctx F V -> incl seen (f_ids F) -> sub G (tafter [] F) ->
  len_wf seen l = true -> len_typed G l = true -> len_value (mk_env F V) l.
Proof.
  intros Hx Hi Hs H1 H2. eapply len_value_typed; eauto.
  - eapply env_has_sub; [apply (x_has _ _ Hx)|auto].
  - eapply covers_incl; [apply (x_cov _ _ Hx)|auto].
Qed.

Lemma writer_exact : (forall t, ex_ty t) /\ (forall gs, ex_fields gs) /\ (forall al, ex_alts al).
Proof.
  apply schema_mutind; unfold ex_ty, ex_alts.
  - intros t n c F V id mem k v G seen Hx Hw Hi Ht Hs Hv Hd Hm.
    destruct mem; [exfalso; eapply Hm; eauto|].
    cbn [write_ty wf_ty has_ty ok_ty fault_ty] in *. apply andb_true_iff in Hw. destruct Hw as [W1 W2].
    unfold write_fixed. apply orb_false_iff in Hd. destruct Hd as [D1 D2]. rewrite D1.
    cbn [andb]. unfold verify_then_write. rewrite D2. rewrite write_const_ok; auto; [|destruct t; lia].
    simpl. apply exact_good; auto.
  - intros elt l b c F V id mem k v G seen Hx Hw Hi Ht Hs Hv Hd Hm.
    cbn [write_ty wf_ty typed_ty has_ty ok_ty fault_ty] in *.
    apply andb_true_iff in Hw. destruct Hw as [W1 W2]. destruct v as [|xs| | | | |]; try tauto.
    eapply exact_iff; [| |eapply exact_bind; [apply exact_len; eapply ctx_len; eauto|]].
    3:{ intros _. rewrite write_var_ok by auto. apply exact_ok. }
    + split; [intros [X _]; eauto|]. intros (ys & E & X). inversion E; subst. auto.
    + intros r. cbv beta. split; [intros [X|[_ []]]; exists xs; tauto|].
      intros (ys & E & X). inversion E; subst. tauto.
  - intros gs IH c F V id mem k v G seen Hx Hw Hi Ht Hs Hv Hd Hm.
    cbn [write_ty wf_ty typed_ty has_ty ok_ty fault_ty] in *. destruct v as [| |ws| | | |]; try tauto.
    eapply exact_iff; [| |apply (ex_record gs IH c ws); auto].
    + split; [eauto|]. intros (ys & E & X). inversion E; subst. auto.
    + intros r. split; [eauto|]. intros (ys & E & X). inversion E; subst. auto.
  - intros n gs IH c F V id mem k v G seen Hx Hw Hi Ht Hs Hv Hd Hm.
    cbn [write_ty wf_ty typed_ty has_ty ok_ty fault_ty] in *. destruct v as [|xs| | | | |]; try tauto.
    destruct Hv as [<- Hv]. rewrite Nat.eqb_refl.
    eapply exact_iff; [| |apply (ex_records gs IH c xs); auto].
    + split; [eauto|]. intros (ys & E & X). inversion E; subst. auto.
    + intros r. split; [eauto|]. intros (ys & E & X). inversion E; subst. auto.
  - intros gs IH recsz l b c F V id mem k v G seen Hx Hw Hi Ht Hs Hv Hd Hm.
    cbn [write_ty wf_ty typed_ty has_ty ok_ty fault_ty] in *.
    apply andb_true_iff in Hw. destruct Hw as [Hw W2].
    apply andb_true_iff in Hw. destruct Hw as [W1 W3].
    apply andb_true_iff in Ht. destruct Ht as [T1 T2]. destruct v as [|xs| | | | |]; try tauto.
    eapply exact_iff; [| |eapply exact_bind; [apply exact_len; eapply ctx_len; eauto|intros _; apply (ex_records gs IH c xs); auto]].
    + split; [intros [X Y]; eauto|]. intros (ys & E & X). inversion E; subst. auto.
    + intros r. cbv beta. split; [intros X; exists xs; split; auto|].
      intros (ys & E & X). inversion E; subst. exact X.
  - intros b IH p ids c F V id mem k v G seen Hx Hw Hi Ht Hs Hv Hd Hm.
    cbn [write_ty wf_ty typed_ty has_ty ok_ty fault_ty] in *.
    apply andb_true_iff in Hw. destruct Hw as [W1 W2].
    apply andb_true_iff in Ht. destruct Ht as [_ T2].
    destruct (covers_lookups _ _ ids (covers_incl _ _ _ (x_cov _ _ Hx) Hi) W1) as [args Ha].
    rewrite Ha.
    assert (Hok : forall P : list val -> Prop, (exists a, Some args = Some a /\ P a) <-> P args).
    { intros P. split; [intros (a & E & X); inversion E; subst; auto|eauto]. }
    destruct (p args) eqn:Ep, v; try tauto; simpl fst.
    + apply exact_err; [|intros r]; rewrite Hok, Ep.
      * intros (v' & E & _). discriminate.
      * split; [intros ->; auto|]. intros [[_ X]|(v' & E & _)]; [auto|discriminate].
    + assert (Hin : exact (ok_ty c (mk_env F V) b v) (fault_ty c (mk_env F V) b v)
        (fst (wmem (write_ty c F V id false CNone b v)))).
      { eapply IH; eauto. discriminate. }
      eapply exact_iff; [| |exact Hin].
      * rewrite Hok, Ep. split; [eauto|]. intros (v' & E & X). inversion E; subst. auto.
      * intros r. rewrite Hok, Ep. split; [eauto|]. intros [[E _]|(v' & E & X)]; [discriminate|].
        inversion E; subst. auto.
    + apply exact_good; [|intros r]; rewrite Hok, Ep; auto. intros [[v' X] _]. discriminate.
    + apply exact_err; [|intros r]; rewrite Hok, Ep; [discriminate|].
      split; [intros ->; eauto|]. tauto.
  - intros g al IH c F V id mem k v G seen Hx Hw Hi Ht Hs Hv Hd Hm.
    cbn [write_ty wf_ty typed_ty has_ty ok_ty fault_ty] in *.
    apply andb_true_iff in Hw. destruct Hw as [W1 W2].
    apply andb_true_iff in Ht. destruct Ht as [T1 T2].
    destruct v as [| | | | |i v|]; try tauto.
    assert (Hal : exact (ok_alts c (mk_env F V) al i v) (fault_alts c (mk_env F V) al i v)
        (fst (wmem (write_alts c F V id al i v)))) by eauto.
    assert (Hg : exists r, deduce_type (mk_env F V) g = Some r /\
                           forall j, r = Some j -> (j < a_len al)%nat).
    { eapply deduce_type_total; eauto.
      - eapply env_has_sub; [apply (x_has _ _ Hx)|auto].
      - eapply covers_incl; [apply (x_cov _ _ Hx)|auto]. }
    destruct Hg as (r & Hr & _).
    assert (Hin : guide_ok (mk_env F V) g i ->
      exact (exists i' v', VAlt i v = VAlt i' v' /\ guide_ok (mk_env F V) g i' /\ ok_alts c (mk_env F V) al i' v')
        (fun r => exists i' v', VAlt i v = VAlt i' v' /\
          ((~ guide_ok (mk_env F V) g i' /\ (exists j, selects (mk_env F V) g j) /\ r = ValidationFailure) \/
           (~ guide_ok (mk_env F V) g i' /\ (forall j, ~ selects (mk_env F V) g j) /\ r = TypeDeductionFailure) \/
           (guide_ok (mk_env F V) g i' /\ fault_alts c (mk_env F V) al i' v' r)))
        (fst (wmem (write_alts c F V id al i v)))).
    { intros Hgo. eapply exact_iff; [| |exact Hal].
      - split; [eauto 6|]. intros (i' & v' & E & X). inversion E; subst. tauto.
      - intros r'. split; [intros X; exists i, v; tauto|]. intros (i' & v' & E & X). inversion E; subst. tauto. }
    assert (Hun : is_match_field g = false -> (guide_ok (mk_env F V) g i <-> selects (mk_env F V) g i)).
    { destruct g; simpl; try discriminate; tauto. }
    destruct (is_match_field g) eqn:Eg; [destruct g; try discriminate; apply Hin; simpl; auto|].
    specialize (Hun eq_refl).
    assert (Hrw : (match g with
      | GField _ _ _ => write_alts c F V id al i v
      | _ => match deduce_type (mk_env F V) g with
             | Some (Some j) => if Nat.eqb j i then write_alts c F V id al i v else WErr ValidationFailure
             | Some None => WErr TypeDeductionFailure
             | None => WStuck end end) =
      match r with
      | Some j => if Nat.eqb j i then write_alts c F V id al i v else WErr ValidationFailure
      | None => WErr TypeDeductionFailure end).
    { destruct g; try discriminate Eg; rewrite Hr; auto. }
    rewrite Hrw. clear Hrw. destruct r as [j|].
    + apply deduce_type_iff in Hr. destruct (Nat.eqb_spec j i) as [->|Hne].
      * apply Hin. tauto.
      * assert (Hno : ~ guide_ok (mk_env F V) g i).
        { intros X. apply Hun in X. apply deduce_type_iff in X, Hr. congruence. }
        simpl. apply exact_err.
        -- intros (i' & v' & E & X & _). inversion E; subst. tauto.
        -- intros r. split; [intros ->; exists i, v; split; eauto 6|].
           intros (i' & v' & E & X). inversion E; subst. destruct X as [X|[X|X]]; try tauto.
           destruct X as (_ & X & _). exfalso. eapply X; eauto.
    + assert (Hno : forall j, ~ selects (mk_env F V) g j).
      { intros j X. apply deduce_type_iff in X. congruence. }
      simpl. apply exact_err.
      * intros (i' & v' & E & X & _). inversion E; subst. apply (Hno i'). tauto.
      * intros r. split; [intros ->; exists i, v; split; auto|].
        { right. left. split; [|auto]. intros X. apply (Hno i). tauto. }
        intros (i' & v' & E & X). inversion E; subst. destruct X as [X|[X|X]]; try tauto.
        -- destruct X as (_ & [j X] & _). exfalso. eapply Hno; eauto.
        -- destruct X as [X _]. exfalso. apply (Hno i'). tauto.
  - intros c F V ws G seen Hx Hw Hi Hi' Ht Hs Hm Hv. destruct ws; [|simpl in Hv; tauto].
    simpl. apply exact_ok.
  - intros id t IHt k gs IHgs c F V ws G seen Hx Hw Hi Hi' Ht Hs Hm Hv.
    destruct ws as [|w ws]; [simpl in Hv; tauto|].
    cbn [write_fields wf_fields typed_fields has_fields members f_ids ok_fields stops] in *.
    apply andb_true_iff in Hw. destruct Hw as [Hw W3]. apply andb_true_iff in Hw. destruct Hw as [W1 W2].
    apply andb_true_iff in Ht. destruct Ht as [Ht T3]. apply andb_true_iff in Ht. destruct Ht as [T1 T2].
    destruct Hv as [V1 V2]. destruct Hm as [M1 M2].
    assert (Hsc : is_derived F id || has_cond_obligation F id = true -> exists s n, t = FFixed (TScalar s) n).
    { intros H. destruct (x_scalar _ _ Hx _ H) as (s & n & E). rewrite M1 in E. inversion E; eauto. }
    assert (Hf : exact (ok_field c F V id t k w) (fault_field c F V id t k w)
      (fst (wmem (wbind (if is_derived F id || is_frozen t k then WRet tt else wcheck k w)
         (fun _ => write_ty c F V id true k t w))))).
    { destruct (match t with FFixed _ _ => true | _ => false end) eqn:Ef.
      - destruct t; try discriminate. cbn [write_ty ok_field fault_field wf_ty has_ty] in *.
        apply andb_true_iff in W2. destruct W2 as [W2 W4].
        apply (exact_fixed c F V id k t n w); auto.
        + destruct t; lia.
        + intros H. destruct (Hsc H) as (s & m & E). inversion E; subst. eauto.
      - assert (Hd : is_derived F id || has_cond_obligation F id = false).
        { destruct (is_derived F id || has_cond_obligation F id); auto.
          destruct (Hsc eq_refl) as (s & n & ->). discriminate. }
        pose proof Hd as Hd'. apply orb_false_iff in Hd'. destruct Hd' as [D1 D2]. rewrite D1.
        assert (is_frozen t k = false) as -> by (destruct t; try discriminate Ef; reflexivity).
        cbn [orb].
        assert (Ho : ok_field c F V id t k w = (holds k w /\ ok_ty c (mk_env F V) t w))
          by (destruct t; try discriminate Ef; reflexivity).
        assert (Hfa : forall r, fault_field c F V id t k w r =
          ((violates k w /\ r = ValidationFailure) \/ (holds k w /\ fault_ty c (mk_env F V) t w r)))
          by (intros r; destruct t; try discriminate Ef; reflexivity).
        rewrite Ho. eapply exact_iff; [reflexivity| |eapply exact_bind; [eapply exact_wcheck; eauto|]].
        + intros r. rewrite Hfa. reflexivity.
        + intros _. eapply IHt; eauto. intros _ t' n ->. discriminate. }
    eapply exact_iff; [| |eapply exact_bind; [apply exact_map; exact Hf|]].
    3:{ intros _. apply (IHgs c F V ws ((id, t) :: G) (id :: seen)); auto.
      - intros x [->|Hin]; auto. apply Hi'. left; auto.
      - intros x Hin. apply Hi'. right; auto.
      - intros i u. simpl. destruct (String.eqb_spec id i); auto. intros E; inversion E; subst; auto. }
    + reflexivity.
    + intros [r i]. simpl. split.
      * intros [(r' & E & X)|X]; [inversion E; subst; auto|tauto].
      * intros [[-> X]|X]; [left; eauto|right; exact X].
  - intros c F V id i v G seen _ _ _ _ _ Hv. simpl in Hv. tauto.
  - intros t IHt k al IHal c F V id i v G seen Hx Hw Hi Ht Hs Hv Hd.
    cbn [write_alts wf_alts typed_alts has_alt ok_alts fault_alts] in *.
    apply andb_true_iff in Hw. destruct Hw as [W1 W2].
    apply andb_true_iff in Ht. destruct Ht as [Ht T3].
    apply andb_true_iff in Ht. destruct Ht as [Ht T2].
    apply andb_true_iff in Ht. destruct Ht as [_ T1].
    destruct i.
    + eapply exact_iff; [reflexivity| |eapply (exact_bind _ _ _ (fault_ty c (mk_env F V) t v));
        [eapply exact_wcheck; eauto|]].
      * intros r. cbv beta. reflexivity.
      * intros _. eapply IHt; eauto. discriminate.
    + eapply IHal; eauto.
Qed.

(** ** The casts *)

Lemma stream_cast_exact c fs vs : wf fs = true -> typed fs = true -> has_fields fs vs ->
  exact (writable c fs vs) (fun e => stops c fs vs fs vs (snd e) (fst e))
    (fst (wmem (stream_cast c fs vs))).
Proof. intros. apply ex_cast; auto. apply writer_exact. Qed.

Lemma write_ok_iff c fs vs out : wf fs = true -> typed fs = true -> has_fields fs vs ->
  (wmem (stream_cast c fs vs) = (Ok tt, out) <->
   writable c fs vs /\ out = enc_fields (c_wire c) fs (emitted c fs vs)).
Proof.
  intros Hw Ht Hv. destruct (stream_cast_exact c fs vs Hw Ht Hv) as [H1 _].
  pose proof (stream_cast_good c True fs vs Hw Ht (or_intror I) Hv) as Hg.
  unfold good in Hg. destruct (wmem (stream_cast c fs vs)) as [o out']. simpl in *. split.
  - intros E. inversion E; subst. split; [apply H1; auto|exact Hg].
  - intros [X ->]. apply H1 in X. subst o. rewrite Hg. auto.
Qed.

Lemma stops_at c F V gs : forall ws id r, length ws = f_len gs ->
  (stops c F V gs ws id r <->
   exists pre t k v post vpre vpost, gs = f_app pre (FCons id t k post) /\ ws = vpre ++ v :: vpost /\
     length vpre = f_len pre /\ ok_fields c F V pre vpre /\ fault_field c F V id t k v r).
Proof.
  induction gs as [|i t k gs IH]; intros [|w ws] id r Hl; simpl in Hl; try discriminate.
  - simpl. split; [tauto|]. intros (pre & t & k & v & post & vpre & vpost & E & _).
    destruct pre; discriminate.
  - cbn [stops]. rewrite IH by lia. split.
    + intros [[-> H]|[H (pre & t' & k' & v & post & vpre & vpost & -> & -> & L & O & X)]].
      * exists FNil, t, k, w, gs, [], ws. simpl. auto 7.
      * exists (FCons i t k pre), t', k', v, post, (w :: vpre), vpost. simpl. auto 8.
    + intros (pre & t' & k' & v & post & vpre & vpost & E1 & E2 & L & O & X).
      destruct pre as [|i' t'' k'' pre].
      * destruct vpre; [|discriminate L]. simpl in E1, E2. inversion E1; inversion E2; subst. auto.
      * destruct vpre as [|w' vpre]; [discriminate L|]. simpl in E1, E2. inversion E1; inversion E2; subst.
        right. simpl in O, L. destruct O as [O1 O2]. split; [exact O1|].
        exists pre, t', k', v, post, vpre, vpost. auto 8.
Qed.

Lemma write_err_iff c fs vs r id : wf fs = true -> typed fs = true -> has_fields fs vs ->
  (fst (wmem (stream_cast c fs vs)) = Err (r, id) <->
   exists pre t k v, field_at fs vs pre id t k v /\
     ok_fields c fs vs pre (firstn (f_len pre) vs) /\ fault_field c fs vs id t k v r).
Proof.
  intros Hw Ht Hv. destruct (stream_cast_exact c fs vs Hw Ht Hv) as [_ H2]. rewrite H2. simpl.
  rewrite stops_at by (apply has_fields_length; auto). split.
  - intros (pre & t & k & v & post & vpre & vpost & E1 & E2 & L & O & X).
    exists pre, t, k, v. split; [exists post, vpre, vpost; auto|]. split; auto.
    assert (firstn (f_len pre) vs = vpre) as ->; auto.
    rewrite E2, <- L, firstn_app, Nat.sub_diag, firstn_all. apply app_nil_r.
  - intros (pre & t & k & v & (post & vpre & vpost & E1 & E2 & L) & O & X).
    exists pre, t, k, v, post, vpre, vpost. split; auto. split; auto. split; auto. split; auto.
    assert (firstn (f_len pre) vs = vpre) as <-; auto.
    rewrite E2, <- L, firstn_app, Nat.sub_diag, firstn_all. apply app_nil_r.
Qed.

Lemma write_decided c fs vs : wf fs = true -> typed fs = true -> has_fields fs vs ->
  plain_fields fs = true ->
  writable c fs vs \/
  exists pre id t k v r, field_at fs vs pre id t k v /\
     ok_fields c fs vs pre (firstn (f_len pre) vs) /\ fault_field c fs vs id t k v r.
Proof.
  intros Hw Ht Hv Hp. pose proof (stream_cast_good c False fs vs Hw Ht (or_introl Hp) Hv) as Hg.
  destruct (stream_cast_exact c fs vs Hw Ht Hv) as [H1 _].
  pose proof (fun r id => write_err_iff c fs vs r id Hw Ht Hv) as H2.
  unfold good in Hg. destruct (fst (wmem (stream_cast c fs vs))) as [[]|[r id]| | |]; try tauto.
  right. destruct (proj1 (H2 r id) eq_refl) as (pre & t & k & v & X). exists pre, id, t, k, v, r. auto.
Qed.
